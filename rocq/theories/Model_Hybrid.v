(** Models of PowerlawPeak (gwkokab/models/hybrids/_powerlawpeak.py), BrokenPowerlawTwoPeakFull
    (hybrids/_bp2pfull.py) and EccentricityMattersModel (gwkanal/ecc_matters/common.py), with the
    analyses of gwkanal/ecc_matters.

    Parameters and coordinates of events are finite numbers; batch dimensions are not modelled.
    A dictionary of parameters is a list of pairs, a missing key an error (None). *)
From Coq Require Import String Reals List Bool.
From Verif Require Import Model_X Model_Guru Model_Powerlaw Model_Gauss Model_Constraints Model_Joint Model_Mass Model_Spin Model_Redshift.
Import ListNotations.
Open Scope R_scope.

Definition params := list (string * R).
(** params["a"], params["b"], ... *)
Definition gets (ps : params) (names : list string) : option (list R) := map_opt (dget ps) names.
(** params.get(name, default) *)
Definition get_default (ps : params) (name : string) (default : R) : R :=
  match dget ps name with Some r => r | None => default end.

(** functions of one or two coordinates as functions of an event *)
Definition on1 (f : R -> X) (v : list X) : X := match v with [Fin x] => f x | _ => NaN end.
Definition on2 (f : R -> R -> X) (v : list X) : X := match v with [Fin x; Fin y] => f x y | _ => NaN end.
Definition holds1 (p : R -> bool) (v : list X) : bool := match v with [Fin x] => p x | _ => false end.
Definition holds2 (p : R -> R -> bool) (v : list X) : bool := match v with [Fin x; Fin y] => p x y | _ => false end.
(** constraints.interval *)
Definition between (lo hi x : R) : bool := (if Rle_dec lo x then true else false) && (if Rle_dec x hi then true else false).

Section Hybrid.
Context {K : Type}.
(** the samplers, which play no part here *)
Variable draw : K -> list X.
Variable validate : bool.

(** a distribution whose log_prob checks the support when its arguments are validated *)
Definition leaf1 (lp : R -> X) (supp : R -> bool) : dist K :=
  Leaf None (on1 (fun x => validated validate (supp x) (lp x))) (holds1 supp) draw.
Definition leaf2 (lp : R -> R -> X) (supp : R -> R -> bool) : dist K :=
  Leaf (Some 2%nat) (on2 (fun x y => validated validate (supp x y) (lp x y))) (holds2 supp) draw.

(** SmoothedTwoComponentPrimaryMassRatio and BrokenPowerlawTwoPeak (Model_Mass.v) *)
Definition smoothed_leaf alpha beta delta lambda_peak loc mmax mmin scale : dist K :=
  leaf2 (stc_log_prob alpha beta delta lambda_peak loc mmax mmin scale validate)
        (fun m1 q => mass_ratio_mass_sandwich (Fin mmin) (Fin mmax) (Fin m1) (Fin q)).
Definition two_peak_leaf alpha1 alpha2 beta loc1 loc2 scale1 scale2 delta_m1 delta_m2 lambda_0 lambda_1
    m1min m2min mmax mbreak : dist K :=
  leaf2 (b2p_log_prob alpha1 alpha2 beta loc1 loc2 scale1 scale2 delta_m1 delta_m2 lambda_0 lambda_1
           m1min m2min mmax mbreak validate)
        (fun m1 q => mass_ratio_mass_sandwich (Fin m2min) (Fin mmax) (Fin m1) (Fin q)).

(** log B(a, b), by gammaln in numpyro's Dirichlet *)
Variable betaln : R -> R -> R.
(** numpyro's Beta(a, b).log_prob *)
Definition beta_log_prob (ab : X * X) (x : R) : X :=
  match ab with
  | (Fin a, Fin b) => xsub (xadd (xmul (Fin (a - 1)) (xln (Fin x))) (xmul (Fin (b - 1)) (xln (Fin (1 - x))))) (Fin (betaln a b))
  | _ => NaN
  end.
(** Independent(D, 1) for two equal coordinates *)
Definition pair_leaf (lp : R -> X) (supp : R -> bool) : dist K :=
  leaf2 (fun x y => xadd (lp x) (lp y)) (fun x y => supp x && supp y).
(** the distributions of the tilts, with the support of either part of the mixture *)
Definition spin_orientation_leaf zeta scale1 scale2 : dist K :=
  leaf2 (fun x y => independent_spin_orientation zeta scale1 scale2 [x; y]) (fun x y => between (-1) 1 x && between (-1) 1 y).
Definition minimum_tilt_leaf zeta loc scale minimum : dist K :=
  leaf2 (fun x y => minimum_tilt_extended zeta loc loc scale scale minimum minimum [x; y])
        (fun x y => between minimum 1 x && between minimum 1 y).
(** numpyro's HalfNormal(scale).log_prob *)
Definition half_normal_log_prob (scale x : R) : X := xadd (xln (Fin (norm_pdf x 0 scale))) (xln (Fin 2)).
Definition half_normal_leaf scale : dist K :=
  leaf1 (half_normal_log_prob scale) (fun x => if Rle_dec 0 x then true else false).
(** numpyro's TruncatedNormal(loc, scale, low, high) *)
Definition truncated_normal_leaf loc scale low high : dist K :=
  leaf1 (fun x => truncated_normal_log_prob x loc scale low high) (between low high).

(** the default cosmology *)
Variables c Ho Om Or Ol max_z dz : R.
(** PowerlawRedshift(z_max, kappa) *)
Definition redshift_leaf z_max kappa : dist K :=
  leaf1 (redshift_log_prob c Ho Om Or Ol max_z dz (powerlaw_log_psi kappa) z_max validate) (between 0 z_max).

(** a block appended to component_distributions when its flag is set *)
Definition block (use : bool) (d : option (dist K)) : option (list (dist K)) :=
  if use then match d with Some d => Some [d] | None => None end else Some [].
(** the joint distribution of more than one block *)
Definition joined (ds : list (dist K)) : dist K := match ds with [d] => d | _ => Joint ds None end.
(** validate_sample of JointDistribution.log_prob; a single block validates itself *)
Definition block_log_prob (d : dist K) (v : list X) : X :=
  match d with Joint _ _ => validated validate (in_support d v) (log_prob d v) | _ => log_prob d v end.
(** ScaledMixture(log_scales=[log_rate], component_distributions=[d], support=d._support) *)
Definition mixture_of (log_rate : R) (d : dist K) : list component :=
  [mkcomp (Fin log_rate) (block_log_prob d) (in_support d) validate].

Definition and_then {A B} (o : option A) (f : A -> option B) : option B := match o with Some a => f a | None => None end.

Variables use_spin use_redshift use_tilt use_eccentricity : bool.
(** PowerlawPeak, _powerlawpeak.py:20-94 *)
Definition powerlaw_peak (ps : params) : option (list component) :=
  and_then (match gets ps ["alpha"; "beta"; "delta"; "lambda_peak"; "loc"; "mmax"; "mmin"; "scale"]%string with
            | Some [alpha; beta; delta; lambda_peak; loc; mmax; mmin; scale] =>
              Some (smoothed_leaf alpha beta delta lambda_peak loc mmax mmin scale)
            | _ => None end) (fun smoothing_model =>
  and_then (block use_spin (match gets ps ["chi_mean"; "chi_variance"]%string with
            | Some [mean; variance] => Some (pair_leaf (beta_log_prob (beta_from_mean_var mean variance)) (between 0 1))
            | _ => None end)) (fun spin =>
  and_then (block use_tilt (match gets ps ["cos_tilt_zeta"; "cos_tilt_scale"]%string with
            | Some [zeta; scale] => Some (spin_orientation_leaf zeta scale scale)
            | _ => None end)) (fun tilt =>
  and_then (block use_eccentricity (match gets ps ["eccentricity_scale"]%string with
            | Some [scale] => Some (half_normal_leaf scale)
            | _ => None end)) (fun ecc =>
  and_then (block use_redshift (match gets ps ["z_max"; "kappa"]%string with
            | Some [z_max; kappa] => Some (redshift_leaf z_max kappa)
            | _ => None end)) (fun redshift =>
  and_then (dget ps "log_rate"%string) (fun log_rate =>
  Some (mixture_of log_rate (joined ([smoothing_model] ++ spin ++ tilt ++ ecc ++ redshift))))))))).

(** BrokenPowerlawTwoPeakFull, _bp2pfull.py:20-103 *)
Definition two_peak_full (ps : params) : option (list component) :=
  and_then (match gets ps ["alpha1"; "alpha2"; "beta"; "loc1"; "loc2"; "scale1"; "scale2"; "delta_m1"; "delta_m2";
                           "lambda_0"; "lambda_1"; "m1min"; "m2min"; "mmax"; "mbreak"]%string with
            | Some [alpha1; alpha2; beta; loc1; loc2; scale1; scale2; delta_m1; delta_m2; lambda_0; lambda_1;
                    m1min; m2min; mmax; mbreak] =>
              Some (two_peak_leaf alpha1 alpha2 beta loc1 loc2 scale1 scale2 delta_m1 delta_m2 lambda_0 lambda_1
                      m1min m2min mmax mbreak)
            | _ => None end) (fun smoothing_model =>
  and_then (block use_spin (match gets ps ["chi_loc"; "chi_scale"]%string with
            | Some [loc; scale] => Some (pair_leaf (fun x => truncated_normal_log_prob x loc scale 0 1) (between 0 1))
            | _ => None end)) (fun spin =>
  and_then (block use_tilt (match gets ps ["cos_tilt_zeta"; "cos_tilt_loc"; "cos_tilt_scale"]%string with
            | Some [zeta; loc; scale] => Some (minimum_tilt_leaf zeta loc scale (get_default ps "cos_tilt_minimum" (-1)))
            | _ => None end)) (fun tilt =>
  and_then (block use_eccentricity (match gets ps ["eccentricity_loc"; "eccentricity_scale"]%string with
            | Some [loc; scale] =>
              Some (truncated_normal_leaf loc scale (get_default ps "eccentricity_low" 0) (get_default ps "eccentricity_high" 1))
            | _ => None end)) (fun ecc =>
  and_then (block use_redshift (match gets ps ["z_max"; "kappa"]%string with
            | Some [z_max; kappa] => Some (redshift_leaf z_max kappa)
            | _ => None end)) (fun redshift =>
  and_then (dget ps "log_rate"%string) (fun log_rate =>
  Some (mixture_of log_rate (joined ([smoothing_model] ++ spin ++ tilt ++ ecc ++ redshift))))))))).

(** Wysocki2019MassModel (Model_Mass.v) with the support mass_sandwich(mmin, mmax) *)
Definition wysocki_leaf alpha_m mmin mmax : dist K :=
  leaf2 (wysocki_log_prob alpha_m mmin mmax) (fun m1 m2 => mass_sandwich (Fin mmin) (Fin mmax) (Fin m1) (Fin m2)).
(** EccentricityMattersModel, ecc_matters/common.py:15-40.  validate_args is not handed to the joint
    distribution, which then uses the global default [validate_default] *)
Variable validate_default : bool.
Definition eccentricity_matters (log_rate alpha_m mmin mmax loc scale low high : R) : list component :=
  let comp_dist := Joint [wysocki_leaf alpha_m mmin mmax; truncated_normal_leaf loc scale low high] None in
  [mkcomp (Fin log_rate) (fun v => validated validate_default (in_support comp_dist v) (log_prob comp_dist v))
          (in_support comp_dist) validate_default].
End Hybrid.

(** parameters and model_parameters of the analyses, ecc_matters/sage.py:20-27 and monk.py; the
    generator's lists, ecc_matters/genie.py:72-81 and 114-118 *)
Definition ecc_parameters : list string := ["mass_1_source"; "mass_2_source"; "eccentricity"]%string.
Definition ecc_model_parameters : list string := ["log_rate"; "alpha_m"; "mmin"; "mmax"; "loc"; "scale"; "low"; "high"]%string.
Definition ecc_genie_model_parameters : list string := ["alpha_m"; "high"; "loc"; "log_rate"; "low"; "mmax"; "mmin"; "scale"]%string.
(** the model called with a dictionary of keyword arguments: every argument once and no other *)
Definition call_eccentricity_matters {K} (draw : K -> list X) validate validate_default (kw : params) : option (list component) :=
  if forallb (fun n => existsb (String.eqb n) ecc_model_parameters) (map fst kw) then
    match gets kw ecc_model_parameters with
    | Some [log_rate; alpha_m; mmin; mmax; loc; scale; low; high] =>
      Some (eccentricity_matters draw validate validate_default log_rate alpha_m mmin mmax loc scale low high)
    | _ => None
    end
  else None.
