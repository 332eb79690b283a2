(** Models of the spin distributions (gwkokab/models/spin/_models.py), the truncated-normal mixtures
    (gwkokab/models/sundry/_models.py), the Beta conversions (gwkokab/utils/math.py), the
    minimum-concentration check (gwkanal/utils/checks.py) and the six-dimensional mass-spin model
    (gwkokab/models/hybrids/_bp2pmultispinfull.py).  Parameters and values are finite numbers. *)
From Coq Require Import Reals List Bool.
From Verif Require Import Model_X Model_Powerlaw Model_Gauss Model_Mass.
Import ListNotations.
Open Scope R_scope.

(** ** Beta distribution *)
(** beta_dist_concentrations_to_mean_variance, math.py:17-57 *)
Definition beta_to_mean_variance (alpha beta loc scale : R) : X * X :=
  let sum_of_concentrations := alpha + beta in
  let product_of_concentrations := alpha * beta in
  let mean := xdiv (Fin alpha) (Fin sum_of_concentrations) in
  let variance := sum_of_concentrations + 1 in
  let variance := sum_of_concentrations * sum_of_concentrations * variance in
  let variance := xdiv (Fin product_of_concentrations) (Fin variance) in
  (xadd (Fin loc) (xmul (Fin scale) mean), xmul (Fin (scale * scale)) variance).
(** beta_dist_mean_variance_to_concentrations, math.py:60-100 *)
Definition beta_to_concentrations (mean variance loc scale : R) : X * X :=
  let low := loc in
  let high := loc + scale in
  let mean_shifted_by_low := mean - low in
  let mean_shifted_by_high := mean - high in
  let shared_term := xdiv (Fin (mean_shifted_by_low * mean_shifted_by_high + variance)) (Fin (scale * variance)) in
  (xmul (Fin (- mean_shifted_by_low)) shared_term, xmul (Fin mean_shifted_by_high) shared_term).
(** BetaFromMeanVar, spin/_models.py:129-156: the concentrations given to Beta *)
Definition beta_from_mean_var (mean variance : R) : X * X :=
  (xdiv (Fin (mean * mean * (1 - mean) - mean * variance)) (Fin variance),
   xdiv (Fin (mean * ((1 - mean) * (1 - mean)) - (1 - mean) * variance)) (Fin variance)).
(** check_min_concentration_for_beta_dist, checks.py:11-53 *)
Definition check_min_concentration (loc var alpha_min beta_min : R) : bool :=
  let ensure_positive_alpha := if Rlt_dec (var * (alpha_min + loc)) (loc * loc * (1 - loc)) then true else false in
  let ensure_positive_beta :=
    if Rlt_dec (var * (beta_min + 1 - loc)) (loc * ((1 - loc) * (1 - loc))) then true else false in
  ensure_positive_alpha && ensure_positive_beta.

(** ** mixing fractions *)
(** the fractions of NBrokenPowerlawMGaussian, hybrids/_o4_n_bpls_m_gs.py:135-137: the given ones and
    one minus their sum (Python's sum, from the left starting at 0) *)
Definition complete_fractions (given : list R) : list R := given ++ [1 - fold_left Rplus given 0].

(** ** numpyro distributions used below *)
(** jax.nn.log_softmax *)
Definition log_softmax (l : list X) : list X := map (fun a => xsub a (logsumexp l)) l.
(** MixtureGeneral.log_prob with an explicit support: each component's log density is -inf outside
    its own support; CategoricalProbs supplies log(probs) *)
Definition mixture_general (probs : list R) (lps : list X) : X :=
  logsumexp (map (fun p => xadd (fst p) (snd p)) (combine (log_softmax (map (fun p => xln (Fin p)) probs)) lps)).
(** Uniform(low, high).log_prob on its support *)
Definition uniform_log_prob (x low high : R) : X :=
  if Rlt_dec x low then NInf else if Rlt_dec high x then NInf else xopp (xln (Fin (high - low))).
(** TruncatedNormal(loc, scale, low, high).log_prob on its support, both bounds given *)
Definition truncated_normal_log_prob (x loc scale low high : R) : X :=
  if Rlt_dec x low then NInf else if Rlt_dec high x then NInf
  else xsub (xln (Fin (norm_pdf x loc scale))) (xln (Fin (ndtr ((high - loc) / scale) - ndtr ((low - loc) / scale)))).

(** ** truncated-normal mixtures, sundry/_models.py *)
(** TwoTruncatedNormalMixture, 21-87 *)
Definition two_truncated_normal (high1 loc1 low1 scale1 high2 loc2 low2 scale2 zeta x : R) : X :=
  mixture_general [1 - zeta; zeta]
    [truncated_normal_log_prob x loc1 scale1 low1 high1; truncated_normal_log_prob x loc2 scale2 low2 high2].
(** one coordinate of the parameter arrays of NDIsotropicAndTruncatedNormalMixture *)
Record coord := mkcoord { c_loc : R; c_scale : R; c_ilow : R; c_ihigh : R; c_glow : R; c_ghigh : R }.
(** Independent(..., 1).log_prob: the sum over the coordinates *)
Definition independent (lp : coord -> R -> X) (cs : list coord) (xs : list R) : X :=
  xsum (map (fun p => lp (fst p) (snd p)) (combine cs xs)).
Definition coord_uniform (c : coord) (x : R) : X := uniform_log_prob x (c_ilow c) (c_ihigh c).
Definition coord_gauss (c : coord) (x : R) : X :=
  truncated_normal_log_prob x (c_loc c) (c_scale c) (c_glow c) (c_ghigh c).
(** NDIsotropicAndTruncatedNormalMixture, 178-275 *)
Definition nd_isotropic_and_truncated (zeta : R) (cs : list coord) (xs : list R) : X :=
  mixture_general [1 - zeta; zeta] [independent coord_uniform cs xs; independent coord_gauss cs xs].
(** IndependentSpinOrientationGaussianIsotropic, spin/_models.py:84-126 *)
Definition independent_spin_orientation (zeta scale1 scale2 : R) : list R -> X :=
  nd_isotropic_and_truncated zeta [mkcoord 1 scale1 (-1) 1 (-1) 1; mkcoord 1 scale2 (-1) 1 (-1) 1].
(** MinimumTiltModelExtended, spin/_models.py:202-249; MinimumTiltModel (159-199) is the case of
    equal arguments for both spins *)
Definition minimum_tilt_extended (zeta loc1 loc2 scale1 scale2 minimum1 minimum2 : R) : list R -> X :=
  nd_isotropic_and_truncated zeta
    [mkcoord loc1 scale1 minimum1 1 minimum1 1; mkcoord loc2 scale2 minimum2 1 minimum2 1].

(** ** GWTC4EffectiveSpinSkewNormalModel, spin/_models.py:253-335 *)
(** jax.scipy.stats.truncnorm with standardised bounds [a] and [b] *)
Definition truncnorm_cdf (x a b loc scale : R) : R :=
  let z := (x - loc) / scale in
  if Rle_dec z a then 0 else if Rle_dec b z then 1 else (ndtr z - ndtr a) / (ndtr b - ndtr a).
Definition truncnorm_sf (x a b loc scale : R) : R := 1 - truncnorm_cdf x a b loc scale.
Definition jax_truncnorm_logpdf (x a b loc scale : R) : X :=
  let z := (x - loc) / scale in
  if Rlt_dec z a then NInf else if Rlt_dec b z then NInf
  else xsub (xln (Fin (phi z / scale))) (xln (Fin (ndtr b - ndtr a))).
(** log_prob, 304-335 *)
Definition skew_normal_log_prob (loc scale epsilon value : R) : X :=
  let scale1 := scale * (1 + epsilon) in
  let scale2 := scale * (1 - epsilon) in
  let normalization_constant :=
    (1 + epsilon) * truncnorm_cdf loc (- (1 + loc) / scale1) ((1 - loc) / scale1) loc scale1
    + (1 - epsilon) * truncnorm_sf loc (- (1 + loc) / scale2) ((1 - loc) / scale2) loc scale2 in
  let factor := 1 + (if Rle_dec value loc then 1 else - (1)) * epsilon in
  let scale := scale * factor in
  let log_pdf_unnorm :=
    xadd (xln (Fin factor)) (jax_truncnorm_logpdf value (- (1 + loc) / scale) ((1 - loc) / scale) loc scale) in
  xsub log_pdf_unnorm (xln (Fin normalization_constant)).
