(** Model of gwkokab/parameters.py: the names of the parameters, and what Python makes of them as
    keys of dictionaries and entries of lists. *)
From Coq Require Import String List Bool Arith.
Import ListNotations.
Open Scope string_scope.

(** the members of Parameters, parameters.py:22-58 *)
Inductive member :=
  | CHI_1
  | CHI_2
  | CHIRP_MASS
  | CHIRP_MASS_DETECTOR
  | CHIRP_MASS_SOURCE
  | COS_IOTA
  | COS_TILT_1
  | COS_TILT_2
  | DETECTION_TIME
  | ECCENTRICITY
  | EFFECTIVE_SPIN
  | LUMINOSITY_DISTANCE
  | MASS_RATIO
  | MEAN_ANOMALY
  | PHI_1
  | PHI_12
  | PHI_2
  | PHI_ORB
  | POLARIZATION_ANGLE
  | PRECESSING_SPIN
  | PRIMARY_MASS_DETECTED
  | PRIMARY_MASS_SOURCE
  | PRIMARY_SPIN_MAGNITUDE
  | PRIMARY_SPIN_X
  | PRIMARY_SPIN_Y
  | PRIMARY_SPIN_Z
  | REDSHIFT
  | REDUCED_MASS
  | RIGHT_ASCENSION
  | SECONDARY_MASS_DETECTED
  | SECONDARY_MASS_SOURCE
  | SECONDARY_SPIN_MAGNITUDE
  | SECONDARY_SPIN_X
  | SECONDARY_SPIN_Y
  | SECONDARY_SPIN_Z
  | SIN_DECLINATION
  | SYMMETRIC_MASS_RATIO.

(** the value of a member, the same lines *)
Definition value (m : member) : string :=
  match m with
  | CHI_1 => "chi_1"
  | CHI_2 => "chi_2"
  | CHIRP_MASS => "chirp_mass"
  | CHIRP_MASS_DETECTOR => "chirp_mass_detector"
  | CHIRP_MASS_SOURCE => "chirp_mass_source"
  | COS_IOTA => "cos_iota"
  | COS_TILT_1 => "cos_tilt_1"
  | COS_TILT_2 => "cos_tilt_2"
  | DETECTION_TIME => "detection_time"
  | ECCENTRICITY => "eccentricity"
  | EFFECTIVE_SPIN => "chi_eff"
  | LUMINOSITY_DISTANCE => "luminosity_distance"
  | MASS_RATIO => "mass_ratio"
  | MEAN_ANOMALY => "mean_anomaly"
  | PHI_1 => "phi_1"
  | PHI_12 => "phi_12"
  | PHI_2 => "phi_2"
  | PHI_ORB => "phi_orb"
  | POLARIZATION_ANGLE => "psi"
  | PRECESSING_SPIN => "chi_p"
  | PRIMARY_MASS_DETECTED => "mass_1"
  | PRIMARY_MASS_SOURCE => "mass_1_source"
  | PRIMARY_SPIN_MAGNITUDE => "a_1"
  | PRIMARY_SPIN_X => "spin_1x"
  | PRIMARY_SPIN_Y => "spin_1y"
  | PRIMARY_SPIN_Z => "spin_1z"
  | REDSHIFT => "redshift"
  | REDUCED_MASS => "reduced_mass"
  | RIGHT_ASCENSION => "ra"
  | SECONDARY_MASS_DETECTED => "mass_2"
  | SECONDARY_MASS_SOURCE => "mass_2_source"
  | SECONDARY_SPIN_MAGNITUDE => "a_2"
  | SECONDARY_SPIN_X => "spin_2x"
  | SECONDARY_SPIN_Y => "spin_2y"
  | SECONDARY_SPIN_Z => "spin_2z"
  | SIN_DECLINATION => "dec"
  | SYMMETRIC_MASS_RATIO => "symmetric_mass_ratio"
  end.

(** iteration over the class, in the order of definition *)
Definition members : list member :=
  [CHI_1; CHI_2; CHIRP_MASS; CHIRP_MASS_DETECTOR; CHIRP_MASS_SOURCE; COS_IOTA; COS_TILT_1; COS_TILT_2; DETECTION_TIME; ECCENTRICITY; EFFECTIVE_SPIN; LUMINOSITY_DISTANCE; MASS_RATIO; MEAN_ANOMALY; PHI_1; PHI_12; PHI_2; PHI_ORB; POLARIZATION_ANGLE; PRECESSING_SPIN; PRIMARY_MASS_DETECTED; PRIMARY_MASS_SOURCE; PRIMARY_SPIN_MAGNITUDE; PRIMARY_SPIN_X; PRIMARY_SPIN_Y; PRIMARY_SPIN_Z; REDSHIFT; REDUCED_MASS; RIGHT_ASCENSION; SECONDARY_MASS_DETECTED; SECONDARY_MASS_SOURCE; SECONDARY_SPIN_MAGNITUDE; SECONDARY_SPIN_X; SECONDARY_SPIN_Y; SECONDARY_SPIN_Z; SIN_DECLINATION; SYMMETRIC_MASS_RATIO].

(** a key: a plain text or a member (which is a text as well, parameters.py:8) *)
Inductive key := Str (s : string) | Par (m : member).

(** [self.__eq__(other)] for a member, parameters.py:17-20, when the other side is a plain text;
    [isinstance(other, str)] holds and the value is compared *)
Definition member_eq_str (m : member) (s : string) : bool := String.eqb (value m) s.

(** [a == b].  Python asks the right side first if its class is a subclass of the class of the
    left side that overrides __eq__; two members: the left member compares its value, a plain
    text, with the right member, which is asked first *)
Definition py_eq (a b : key) : bool :=
  match a, b with
  | Str s, Str t => String.eqb s t
  | Str s, Par n => member_eq_str n s
  | Par m, Str t => member_eq_str m t
  | Par m, Par n => member_eq_str n (value m)
  end.

(** [str(a)], parameters.py:11-12 *)
Definition py_str (a : key) : string := match a with Str s => s | Par m => value m end.

Section Hashing.
(** the hash of a text, different from run to run *)
Variable hash : string -> nat.

(** [hash(a)], parameters.py:14-15 *)
Definition py_hash (a : key) : nat := match a with Str s => hash s | Par m => hash (value m) end.

Variable V : Type.
Definition dict := list (key * V).

(** a dictionary finds an entry if the hashes agree and then the keys; an entry is changed in place
    and keeps its first key *)
Fixpoint get (d : dict) (k : key) : option V :=
  match d with
  | [] => None
  | (k', v) :: t => if Nat.eqb (py_hash k') (py_hash k) && py_eq k' k then Some v else get t k
  end.
Fixpoint set (d : dict) (k : key) (v : V) : dict :=
  match d with
  | [] => [(k, v)]
  | (k', v') :: t => if Nat.eqb (py_hash k') (py_hash k) && py_eq k' k then (k', v) :: t else (k', v') :: set t k v
  end.

End Hashing.
Arguments get hash {V}. Arguments set hash {V}.

(** [k in l] and [l.index(k)] *)
Definition py_in (l : list key) (k : key) : bool := existsb (fun x => py_eq x k) l.
Fixpoint py_index (l : list key) (k : key) : option nat :=
  match l with
  | [] => None
  | x :: t => if py_eq x k then Some 0 else option_map S (py_index t k)
  end.

(** [Parameters(s)]: the member with that value; ValueError otherwise *)
Definition by_value (s : string) : option member := find (fun m => String.eqb (value m) s) members.
