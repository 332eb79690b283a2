(** Vocabulary for the injection and posterior-prior properties. *)
From Coq Require Import String Ascii.
From Coq Require Import Reals List Bool.
From Verif Require Import Model_X Model_Transform Model_Injections.
Import ListNotations.
Open Scope R_scope.
(** the map (u, v) -> (F u v, G u v) has partial derivatives at (u, v), and the absolute value of their determinant is J *)
Definition jacobian (F G : R -> R -> R) (u v J : R) : Prop :=
  exists fu fv gu gv,
    derivable_pt_lim (fun x => F x v) u fu /\ derivable_pt_lim (fun y => F u y) v fv
    /\ derivable_pt_lim (fun x => G x v) u gu /\ derivable_pt_lim (fun y => G u y) v gv
    /\ J = Rabs (fu * gv - fv * gu).
(** ratio of primary mass to chirp mass at mass ratio q *)
Definition primary_over_chirp (q : R) : R := Rpower (1 + q) (1/5) / Rpower q (3/5).
(** a substring *)
Definition substring_of (sub s : string) : Prop := exists a b, s = (a ++ sub ++ b)%string.
(** entry j of a column of Booleans / numbers *)
Definition marked (l : list bool) (j : nat) : Prop := nth j l false = true.
(** a > b for values possibly infinite or undefined *)
Definition exceeds (a b : X) : Prop := xltb b a = true.

(** ** Mass coordinates: pairs of parameters from which, at redshift z, the source-frame masses follow *)
Inductive mass_coords := SourceMasses | SourceRatio | DetectedMasses | DetectedRatio | ChirpRatio | DetectedChirpRatio.
Definition first_name (c : mass_coords) : string :=
  match c with
  | SourceMasses | SourceRatio => "mass_1_source"
  | DetectedMasses | DetectedRatio => "mass_1"
  | ChirpRatio => "chirp_mass"
  | DetectedChirpRatio => "chirp_mass_detector"
  end%string.
Definition second_name (c : mass_coords) : string :=
  match c with
  | SourceMasses => "mass_2_source"
  | DetectedMasses => "mass_2"
  | _ => "mass_ratio"
  end%string.
Definition source_mass_1 (c : mass_coords) (z u v : R) : R :=
  match c with
  | SourceMasses | SourceRatio => u
  | DetectedMasses | DetectedRatio => u / (1 + z)
  | ChirpRatio => u * primary_over_chirp v
  | DetectedChirpRatio => u * primary_over_chirp v / (1 + z)
  end.
Definition source_mass_2 (c : mass_coords) (z u v : R) : R :=
  match c with
  | SourceMasses => v
  | DetectedMasses => v / (1 + z)
  | SourceRatio | DetectedRatio | ChirpRatio | DetectedChirpRatio => source_mass_1 c z u v * v
  end.
(** all names of mass parameters, and the mass parameters asked for are those of [c] *)
Definition mass_parameters : list string :=
  ["mass_1_source"; "mass_2_source"; "mass_1"; "mass_2"; "chirp_mass"; "chirp_mass_detector"; "mass_ratio"]%string.
Definition asks_for (ps : list string) (c : mass_coords) : Prop :=
  forall k, In k mass_parameters -> (In k ps <-> k = first_name c \/ k = second_name c).

(** ** An injection as loaded: source-frame masses, redshift, spin magnitudes and tilts *)
Definition injection (m1 m2 z a1 a2 c1 c2 : R) (d : list (string * X)) : Prop :=
  dget d "mass_1_source" = Some (Fin m1) /\ dget d "mass_2_source" = Some (Fin m2) /\ dget d "redshift" = Some (Fin z)
  /\ dget d "a_1" = Some (Fin a1) /\ dget d "a_2" = Some (Fin a2)
  /\ dget d "cos_tilt_1" = Some (Fin c1) /\ dget d "cos_tilt_2" = Some (Fin c2).
(** [e] is the density of the effective spins asked for, at the injection, under isotropic uniform spins *)
Definition isotropic_value (chieff_prior : X -> X -> X) (chieff_chip_prior : X -> X -> X -> X) (m1 m2 a1 a2 c1 c2 : R) (ps : list string) (e : R) : Prop :=
  let ce := chieff_tilts (Fin m1) (Fin m2) (Fin a1) (Fin a2) (Fin c1) (Fin c2) in
  let cp := chi_p_from_components (Fin a1) (Fin c1) (Fin a2) (Fin c2) (Fin (m2 / m1)) in
  (if wants "chi_p" ps then chieff_chip_prior ce cp (Fin (m2 / m1)) else chieff_prior ce (Fin (m2 / m1))) = Fin e.
(** density of the spin parameters asked for divided by that of the magnitudes and tilts, 1/2 for each
    spin, under isotropic uniform spins *)
Definition spin_factor (a1 a2 c1 c2 : R) (ps : list string) (e : R) : R :=
  (if wants "chi_eff" ps then 4 * e else 1) * (if wants "chi_1" ps then - ln (Rabs (a1 * c1)) else 1) * (if wants "chi_2" ps then - ln (Rabs (a2 * c2)) else 1).
