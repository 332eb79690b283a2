(** Vocabulary for the models with a spin distribution per mass component. *)
From Coq Require Import String Reals List.
From Verif Require Import Model_X Spec_X Model_Guru Model_Mass Model_MultiSpin Model_Hybrid Spec_Hybrid.
Import ListNotations.
Open Scope R_scope.

(** spins and tilts of a component: truncated normals; a fraction zeta of the tilts aligned, the rest isotropic *)
Definition spins_of (c : spin_comp) (a1 a2 t1 t2 : R) : R :=
  truncated_normal (a1_loc c) (a1_scale c) (a1_low c) (a1_high c) a1
  * truncated_normal (a2_loc c) (a2_scale c) (a2_low c) (a2_high c) a2
  * (tilt_zeta c * (truncated_normal (t1_loc c) (t1_scale c) (-1) 1 t1 * truncated_normal (t2_loc c) (t2_scale c) (-1) 1 t2)
     + (1 - tilt_zeta c) * (uniform (-1) 1 t1 * uniform (-1) 1 t2)).
Definition weighted_sum (ws vs : list R) : R := rsum (map (fun p => fst p * snd p) (combine ws vs)).
(** the parts of the mass spectrum: power law below the break, power law above it, two peaks *)
Definition mass_parts alpha1 alpha2 loc1 loc2 scale1 scale2 lambda_0 lambda_1 m1min mmax mbreak (m : R) : list R :=
  let powerlaw := wexp (broken_powerlaw_log_prob m alpha1 alpha2 m1min mmax mbreak) in
  [if Rlt_dec m mbreak then lambda_0 * powerlaw else 0; if Rlt_dec m mbreak then 0 else lambda_0 * powerlaw;
   lambda_1 * truncated_normal loc1 scale1 m1min mmax m; (1 - lambda_0 - lambda_1) * truncated_normal loc2 scale2 m1min mmax m].
(** the mean of the spin densities of the components, weighted by their shares of the mass spectrum *)
Definition shared_spins (parts spins : list R) : R := weighted_sum parts spins / rsum parts.

(** the parameters of a component, by its suffix *)
Definition spin_names (suffix : string) : list string :=
  map (fun n => append n suffix)
    ["a_1_loc_"; "a_1_scale_"; "a_1_low_"; "a_1_high_"; "a_2_loc_"; "a_2_scale_"; "a_2_low_"; "a_2_high_"; "cos_tilt_zeta_";
     "cos_tilt_1_loc_"; "cos_tilt_1_scale_"; "cos_tilt_2_loc_"; "cos_tilt_2_scale_"]%string.
Definition spins_named (ps : params) (suffix : string) : spin_comp :=
  let p n := par ps (append n suffix) in
  mkspin (p "a_1_loc_"%string) (p "a_1_scale_"%string) (p "a_1_low_"%string) (p "a_1_high_"%string)
         (p "a_2_loc_"%string) (p "a_2_scale_"%string) (p "a_2_low_"%string) (p "a_2_high_"%string)
         (p "cos_tilt_zeta_"%string) (p "cos_tilt_1_loc_"%string) (p "cos_tilt_1_scale_"%string)
         (p "cos_tilt_2_loc_"%string) (p "cos_tilt_2_scale_"%string).
Definition suffixes : list string := ["bpl1"; "bpl2"; "n1"; "n2"]%string.
Definition multi_names (use_eccentricity : bool) : list string :=
  (["log_rate"; "alpha1"; "alpha2"; "beta"; "loc1"; "loc2"; "scale1"; "scale2"; "delta_m1"; "delta_m2";
    "lambda_0"; "lambda_1"; "m1min"; "m2min"; "mmax"; "mbreak"]%string
   ++ flat_map spin_names suffixes
   ++ (if use_eccentricity then ["eccentricity_scale"]%string else []) ++ ["z_max"; "kappa"]%string)%list.
(** ranges of the parameters *)
Definition multi_in_range (use_eccentricity : bool) (ps : params) : Prop :=
  let p := par ps in
  (0 < p "m1min" < p "mbreak" /\ p "mbreak" < p "mmax" /\ 0 < p "m2min" < p "mmax" /\ 0 < p "delta_m1" /\ 0 < p "delta_m2"
   /\ 0 <= p "lambda_0" /\ 0 <= p "lambda_1" /\ p "lambda_0" + p "lambda_1" <= 1 /\ 0 < p "scale1" /\ 0 < p "scale2")%string
  /\ List.Forall (fun c => 0 < a1_scale c /\ 0 < a2_scale c /\ 0 < t1_scale c /\ 0 < t2_scale c /\ 0 <= tilt_zeta c <= 1
                        /\ a1_low c < a1_high c /\ a2_low c < a2_high c) (map (spins_named ps) suffixes)
  /\ (use_eccentricity = true -> 0 < p "eccentricity_scale"%string).
