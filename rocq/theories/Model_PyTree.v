(** The classes of the package as jax pytrees: which attributes __init__ stores, which of them tree_flatten or
    pytree_data_fields hands to jax as children, and which it keeps as static data.

    jax takes an object apart with tree_flatten, replaces the leaves of its children (jit: by tracers, vmap: by
    slices) and puts it together with tree_unflatten; the static data comes back as it was.  numpyro writes
    tree_flatten for distributions from pytree_data_fields and pytree_aux_fields, with the two shapes as static
    data.  Simplified: the order in which jax visits the keys of a dictionary, numpyro's _validate_args, and
    attributes that numpyro computes on first use. *)
From Coq Require Import String List ZArith Bool.
Import ListNotations.
Open Scope string_scope.
Open Scope list_scope.

Record class := { name : string; init : list string; data : list string; aux : list string }.
(** a numpyro Distribution: its constructor also stores the two shapes *)
Definition distribution (n : string) (i d a : list string) : class :=
  {| name := n; init := i ++ ["_batch_shape"; "_event_shape"]; data := d; aux := a ++ ["_batch_shape"; "_event_shape"] |}.
(** a Constraint or a Transform: tree_flatten is written out *)
Definition plain (n : string) (i d a : list string) : class := {| name := n; init := i; data := d; aux := a |}.

Definition classes : list class := [
  (* gwkanal/utils/priors.py: __init__ (28-41), pytree_data_fields (26-26) *)
  distribution "_DirichletElement"
    ["order"; "n_dimensions"; "sum_of_concentrations"]
    ["order"; "n_dimensions"; "sum_of_concentrations"]
    [];
  (* gwkokab/models/redshift/_models.py: __init__ (129-136), pytree_data_fields (127-127) *)
  distribution "PowerlawRedshift"
    ["z_max"; "_support"; "kappa"]
    ["_support"; "kappa"; "z_max"]
    [];
  (* gwkokab/models/redshift/_models.py: __init__ (186-205), pytree_data_fields (184-184) *)
  distribution "MadauDickinsonRedshift"
    ["z_max"; "_support"; "kappa"; "gamma"; "z_peak"]
    ["_support"; "gamma"; "kappa"; "z_max"; "z_peak"]
    [];
  (* gwkokab/models/mass/_models.py: __init__ (48-78), pytree_data_fields (46-46) *)
  distribution "PowerlawPrimaryMassRatio"
    ["_support"; "alpha"; "beta"; "mmin"; "mmax"]
    ["_support"; "alpha"; "beta"; "mmax"; "mmin"]
    [];
  (* gwkokab/models/mass/_models.py: __init__ (131-158), pytree_data_fields (129-129) *)
  distribution "Wysocki2019MassModel"
    ["_support"; "alpha_m"; "mmin"; "mmax"]
    ["_support"; "alpha_m"; "mmax"; "mmin"]
    [];
  (* gwkokab/models/mass/_models.py: __init__ (213-297), pytree_data_fields (198-211) *)
  distribution "SmoothedTwoComponentPrimaryMassRatio"
    ["_support"; "_logZ"; "_m1s"; "_Z_q_given_m1"; "alpha"; "beta"; "delta"; "lambda_peak"; "loc";
     "mmax"; "mmin"; "scale"]
    ["_logZ"; "_m1s"; "_support"; "_Z_q_given_m1"; "alpha"; "beta"; "delta"; "lambda_peak"; "loc";
     "mmax"; "mmin"; "scale"]
    [];
  (* gwkokab/models/mass/_bpls.py: __init__ (65-88), pytree_data_fields (63-63) *)
  distribution "BrokenPowerlaw"
    ["_support"; "alpha1"; "alpha2"; "mbreak"; "mmax"; "mmin"]
    ["_support"; "alpha1"; "alpha2"; "mbreak"; "mmax"; "mmin"]
    [];
  (* gwkokab/models/mass/_bpls.py: __init__ (193-287), pytree_data_fields (171-191) *)
  distribution "BrokenPowerlawTwoPeak"
    ["_support"; "_logZ"; "_m1s"; "_Z_q_given_m1"; "alpha1"; "alpha2"; "beta"; "loc1"; "loc2";
     "scale1"; "scale2"; "delta_m1"; "delta_m2"; "lambda_0"; "lambda_1"; "m1min"; "m2min"; "mmax";
     "mbreak"]
    ["_logZ"; "_m1s"; "_support"; "_Z_q_given_m1"; "alpha1"; "alpha2"; "beta"; "delta_m1";
     "delta_m2"; "lambda_0"; "lambda_1"; "loc1"; "loc2"; "m1min"; "m2min"; "mbreak"; "mmax";
     "scale1"; "scale2"]
    [];
  (* gwkokab/models/spin/_models.py: __init__ (288-302), pytree_data_fields (286-286) *)
  distribution "GWTC4EffectiveSpinSkewNormalModel"
    ["loc"; "scale"; "epsilon"]
    ["loc"; "scale"; "epsilon"]
    [];
  (* gwkokab/models/hybrids/_utils.py: __init__ (107-168), pytree_data_fields (92-105) *)
  distribution "_SmoothedPowerlawMassRatioAndRest"
    ["rest_dist"; "_support"; "_m1s"; "_Z_q_given_m1"; "beta"; "delta_m1"; "delta_m2"; "log_rate";
     "logZ"; "m1max"; "m1min"; "m2min"]
    ["_m1s"; "_support"; "_Z_q_given_m1"; "beta"; "delta_m1"; "delta_m2"; "log_rate"; "logZ";
     "m1max"; "m1min"; "m2min"; "rest_dist"]
    [];
  (* gwkokab/models/hybrids/_bp2pmultispinfull.py: __init__ (169-525), pytree_data_fields (95-167) *)
  distribution "BrokenPowerlawTwoPeakMultiSpinMultiTilt"
    ["_support"; "_logZ"; "_m1s"; "_Z_q_given_m1"; "a_1_high_bpl1"; "a_1_high_bpl2"; "a_1_high_n1";
     "a_1_high_n2"; "a_1_loc_bpl1"; "a_1_loc_bpl2"; "a_1_loc_n1"; "a_1_loc_n2"; "a_1_low_bpl1";
     "a_1_low_bpl2"; "a_1_low_n1"; "a_1_low_n2"; "a_1_scale_bpl1"; "a_1_scale_bpl2";
     "a_1_scale_n1"; "a_1_scale_n2"; "a_2_high_bpl1"; "a_2_high_bpl2"; "a_2_high_n1";
     "a_2_high_n2"; "a_2_loc_bpl1"; "a_2_loc_bpl2"; "a_2_loc_n1"; "a_2_loc_n2"; "a_2_low_bpl1";
     "a_2_low_bpl2"; "a_2_low_n1"; "a_2_low_n2"; "a_2_scale_bpl1"; "a_2_scale_bpl2";
     "a_2_scale_n1"; "a_2_scale_n2"; "alpha1"; "alpha2"; "beta"; "cos_tilt_1_loc_bpl1";
     "cos_tilt_1_loc_bpl2"; "cos_tilt_1_loc_n1"; "cos_tilt_1_loc_n2"; "cos_tilt_1_scale_bpl1";
     "cos_tilt_1_scale_bpl2"; "cos_tilt_1_scale_n1"; "cos_tilt_1_scale_n2"; "cos_tilt_2_loc_bpl1";
     "cos_tilt_2_loc_bpl2"; "cos_tilt_2_loc_n1"; "cos_tilt_2_loc_n2"; "cos_tilt_2_scale_bpl1";
     "cos_tilt_2_scale_bpl2"; "cos_tilt_2_scale_n1"; "cos_tilt_2_scale_n2"; "cos_tilt_zeta_bpl1";
     "cos_tilt_zeta_bpl2"; "cos_tilt_zeta_n1"; "cos_tilt_zeta_n2"; "delta_m1"; "delta_m2";
     "lambda_0"; "lambda_1"; "loc1"; "loc2"; "m1min"; "m2min"; "mbreak"; "mmax"; "scale1"; "scale2"]
    ["_logZ"; "_m1s"; "_support"; "_Z_q_given_m1"; "a_1_high_bpl1"; "a_1_high_bpl2"; "a_1_high_n1";
     "a_1_high_n2"; "a_1_loc_bpl1"; "a_1_loc_bpl2"; "a_1_loc_n1"; "a_1_loc_n2"; "a_1_low_bpl1";
     "a_1_low_bpl2"; "a_1_low_n1"; "a_1_low_n2"; "a_1_scale_bpl1"; "a_1_scale_bpl2";
     "a_1_scale_n1"; "a_1_scale_n2"; "a_2_high_bpl1"; "a_2_high_bpl2"; "a_2_high_n1";
     "a_2_high_n2"; "a_2_loc_bpl1"; "a_2_loc_bpl2"; "a_2_loc_n1"; "a_2_loc_n2"; "a_2_low_bpl1";
     "a_2_low_bpl2"; "a_2_low_n1"; "a_2_low_n2"; "a_2_scale_bpl1"; "a_2_scale_bpl2";
     "a_2_scale_n1"; "a_2_scale_n2"; "alpha1"; "alpha2"; "beta"; "cos_tilt_1_loc_bpl1";
     "cos_tilt_1_loc_bpl2"; "cos_tilt_1_loc_n1"; "cos_tilt_1_loc_n2"; "cos_tilt_1_scale_bpl1";
     "cos_tilt_1_scale_bpl2"; "cos_tilt_1_scale_n1"; "cos_tilt_1_scale_n2"; "cos_tilt_2_loc_bpl1";
     "cos_tilt_2_loc_bpl2"; "cos_tilt_2_loc_n1"; "cos_tilt_2_loc_n2"; "cos_tilt_2_scale_bpl1";
     "cos_tilt_2_scale_bpl2"; "cos_tilt_2_scale_n1"; "cos_tilt_2_scale_n2"; "cos_tilt_zeta_bpl1";
     "cos_tilt_zeta_bpl2"; "cos_tilt_zeta_n1"; "cos_tilt_zeta_n2"; "delta_m1"; "delta_m2";
     "lambda_0"; "lambda_1"; "loc1"; "loc2"; "m1min"; "m2min"; "mbreak"; "mmax"; "scale1"; "scale2"]
    [];
  (* gwkokab/models/utils/_scaledmixture.py: __init__ (44-105), pytree_data_fields (41-41), pytree_aux_fields (42) *)
  distribution "ScaledMixture"
    ["log_scales"; "_mixture_size"; "_support"; "_component_distributions"]
    ["_component_distributions"; "_support"; "log_scales"]
    ["_mixture_size"];
  (* gwkokab/models/utils/_lazyjointdistribution.py: __init__ (89-212), pytree_data_fields (87-87), pytree_aux_fields (86) *)
  distribution "LazyJointDistribution"
    ["marginal_distributions"; "shaped_values"; "partial_order"; "dependencies"; "_support"]
    ["_support"; "marginal_distributions"]
    ["shaped_values"; "partial_order"; "dependencies"];
  (* gwkokab/models/utils/_joindistribution.py: __init__ (22-125), pytree_data_fields (20-20), pytree_aux_fields (19) *)
  distribution "JointDistribution"
    ["marginal_distributions"; "shaped_values"; "_support"]
    ["_support"; "marginal_distributions"]
    ["shaped_values"];
  (* gwkokab/models/utils/_doubletruncpowerlaw.py: __init__ (382-397), pytree_data_fields (380-380), pytree_aux_fields (379) *)
  distribution "DoublyTruncatedPowerLaw"
    ["_support"; "alpha"; "low"; "high"]
    ["alpha"; "low"; "high"]
    ["_support"];
  (* gwkokab/models/constraints.py: 46-56, 68-69 *)
  plain "_MassSandwichConstraint"
    ["mmin"; "mmax"]
    ["mmin"; "mmax"]
    [];
  (* gwkokab/models/constraints.py: 93-103, 125-126 *)
  plain "_MassRatioMassSandwichConstraint"
    ["mmin"; "mmax"]
    ["mmin"; "mmax"]
    [];
  (* gwkokab/models/constraints.py: 147-148 *)
  plain "_IncreasingVector"
    []
    []
    [];
  (* gwkokab/models/constraints.py: 165-166 *)
  plain "_DecreasingVector"
    []
    []
    [];
  (* gwkokab/models/constraints.py: 187-188 *)
  plain "_StrictlyIncreasingVector"
    []
    []
    [];
  (* gwkokab/models/constraints.py: 209-210 *)
  plain "_StrictlyDecreasingVector"
    []
    []
    [];
  (* gwkokab/models/constraints.py: 229-230 *)
  plain "_PositiveIncreasingVector"
    []
    []
    [];
  (* gwkokab/models/constraints.py: 249-250 *)
  plain "_PositiveDecreasingVector"
    []
    []
    [];
  (* gwkokab/models/constraints.py: 261-271, 320-324 *)
  plain "_AllConstraint"
    ["constraints"; "event_slices"]
    ["constraints"]
    ["event_slices"];
  (* gwkokab/models/constraints.py: 338-339, 350-351 *)
  plain "_AnyConstraint"
    ["constraints"]
    ["constraints"]
    [];
  (* gwkokab/models/constraints.py: 363-372, 389-393 *)
  plain "_TransformedConstraint"
    ["base_support"; "transforms"]
    ["base_support"; "transforms"]
    [];
  (* gwkokab/models/utils/_lazyjointdistribution.py: 23-31, 61-65 *)
  plain "_LazyConstraint"
    ["marginal_distributions"; "dependencies"; "event_slices"]
    ["marginal_distributions"; "dependencies"; "event_slices"]
    [];
  (* gwkokab/models/transformations.py: 144-160, 228-232 *)
  plain "BlockTransform"
    ["event_slices"; "transforms"; "domain"; "codomain"]
    ["transforms"]
    ["event_slices"];
  (* gwkokab/models/transformations.py: 283-284 *)
  plain "PrimaryMassAndMassRatioToComponentMassesTransform"
    []
    []
    [];
  (* gwkokab/models/transformations.py: 329-330 *)
  plain "ComponentMassesToChirpMassAndSymmetricMassRatio"
    []
    []
    [];
  (* gwkokab/models/transformations.py: 368-369 *)
  plain "DeltaToSymmetricMassRatio"
    []
    []
    [];
  (* gwkokab/models/transformations.py: 418-419 *)
  plain "ComponentMassesToChirpMassAndDelta"
    []
    []
    [];
  (* gwkokab/models/transformations.py: 455-456 *)
  plain "SourceMassAndRedshiftToDetectedMassAndRedshift"
    []
    []
    [];
  (* gwkokab/models/transformations.py: 494-495 *)
  plain "ComponentMassesAndRedshiftToDetectedMassAndRedshift"
    []
    []
    [];
  (* gwkokab/models/transformations.py: 535-536 *)
  plain "ComponentMassesToPrimaryMassAndMassRatio"
    []
    []
    [];
  (* gwkokab/models/transformations.py: 581-582 *)
  plain "ComponentMassesToMassRatioAndSecondaryMass"
    []
    []
    [];
  (* gwkokab/models/transformations.py: 621-622 *)
  plain "ComponentMassesToTotalMassAndMassRatio"
    []
    []
    [];
  (* gwkokab/models/transformations.py: 646-647, 662-663 *)
  plain "RedshiftToLuminosityDistance"
    ["cosmology"]
    ["cosmology"]
    [];
  (* numpyro, a library class: constraints.interval *)
  plain "_Interval"
    ["lower_bound"; "upper_bound"]
    ["lower_bound"; "upper_bound"]
    [];
  (* numpyro, a library class: constraints.real *)
  plain "_Real"
    []
    []
    []].

Definition class_of (n : string) : option class := find (fun c => String.eqb (name c) n) classes.

(** leaves: a Python int, or an array (a tracer under jit) *)
Inductive leaf := PyInt (n : Z) | Array (n : Z).
Inductive val :=
| Leaf (x : leaf)
| Seq (l : list val)
| Dict (d : list (string * val))
| Obj (c : string) (attrs : list (string * val)).

Fixpoint assoc {A : Type} (k : string) (l : list (string * A)) : option A :=
  match l with [] => None | (k', v) :: l' => if String.eqb k k' then Some v else assoc k l' end.

Fixpoint traverse {A : Type} (l : list (option A)) : option (list A) :=
  match l with
  | [] => Some []
  | None :: _ => None
  | Some a :: l' => match traverse l' with Some r => Some (a :: r) | None => None end
  end.

(** tree_flatten: getattr for each name; a missing attribute is an AttributeError *)
Definition getattrs {A : Type} (names : list string) (attrs : list (string * A)) : option (list A) :=
  traverse (map (fun k => assoc k attrs) names).
(** tree_unflatten: setattr for each name in turn *)
Definition tree_unflatten (c : class) (static children : list val) : val :=
  Obj (name c) (combine (data c) children ++ combine (aux c) static).

(** jax.tree.map f: flatten, apply f to the leaves of the children, unflatten *)
Fixpoint tree_map (f : leaf -> leaf) (v : val) : option val :=
  match v with
  | Leaf x => Some (Leaf (f x))
  | Seq l => option_map Seq (traverse (map (tree_map f) l))
  | Dict d => option_map (fun vs => Dict (combine (map fst d) vs)) (traverse (map (fun kv => tree_map f (snd kv)) d))
  | Obj n attrs =>
      match class_of n with
      | None => None
      | Some c =>
          match getattrs (data c) (map (fun kv => (fst kv, tree_map f (snd kv))) attrs), getattrs (aux c) attrs with
          | Some children, Some static => option_map (tree_unflatten c static) (traverse children)
          | _, _ => None
          end
      end
  end.

(** an attribute that is not on the instance is looked up on the class.  A BlockTransform inherits the domain and
    codomain of numpyro's Transform, constraints.real; the other transforms define their own
    (transformations.py:253-260 and so on), here a parameter *)
Definition class_attr (own : string -> string -> option val) (n a : string) : option val :=
  if String.eqb n "BlockTransform"
  then if String.eqb a "domain" || String.eqb a "codomain" then Some (Obj "_Real" []) else None
  else own n a.
