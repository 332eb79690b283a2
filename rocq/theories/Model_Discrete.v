(** The loader of posterior samples (src/gwkanal/core/inference_io/_discrete.py). *)
From Coq Require Import String.
From Coq Require Import Reals List Bool Arith ZArith.
From Verif Require Import Model_X Model_Mass Model_Injections.
Import ListNotations.
Open Scope R_scope.

(** Literal types of the fields (lines 42-56) *)
Inductive mass_prior_t := FlatDetectorComponents | FlatDetectorChirpRatio | FlatSourceComponents.
Inductive distance_prior_t := Comoving | Euclidean.
(** DiscreteParameterEstimationLoader (lines 25-56); the file names are left out, the files themselves are
    passed to [load].  [component_spin] is spin_prior == "component". *)
Record loader := {
  parameter_aliases : list (string * string);
  max_samples : option nat;
  mass_prior : option mass_prior_t;
  component_spin : bool;
  distance_prior : option distance_prior_t
}.
(** A data frame: column names and rows; a row maps column names to numbers.  Exceptions are None. *)
Notation row := (list (string * X)).
Record frame := { columns : list string; rows : list row }.

Section Loader.
Variable self : loader.
Variable positions : Z -> nat -> nat -> list nat. (* the positions of the rows of df.sample(n, random_state): seed, n, number of rows *)
Variables logdVcdz z_to_DL dDLdz : X -> X.          (* PLANCK_2015_Cosmology() *)
Variable chieff_prior : X -> X -> X.                (* chi_effective_prior_from_isotropic_spins(chi_eff, q) *)
Variable chieff_chip_prior : X -> X -> X -> X.      (* prior_chieff_chip_isotropic(chi_eff, chi_p, q) *)
Variable parameters : list string.

(** parameter_aliases.get(p, p) (lines 126-146) *)
Definition alias (p : string) : string := match dget (parameter_aliases self) p with Some a => a | None => p end.
(** df[aliases[p]] for one row *)
Definition col (r : row) (p : string) : option X := dget r (alias p).

(** _get_q (lines 195-207) *)
Definition get_q (r : row) : option X :=
  if has_key r (alias "mass_ratio") then col r "mass_ratio"
  else if has_key r (alias "mass_1_source")
  then bind (col r "mass_2_source") (fun m2 => bind (col r "mass_1_source") (fun m1 => Some (xdiv m2 m1)))
  else bind (col r "mass_2") (fun m2 => bind (col r "mass_1") (fun m1 => Some (xdiv m2 m1))).

(** _calculate_distance_prior (lines 209-239), one row; the error for a missing redshift is None *)
Definition distance_log_prior (r : row) : option X :=
  match distance_prior self with
  | None => Some (Fin 0)
  | Some dp =>
      if negb (wants "redshift" parameters) then None else
      bind (col r "redshift") (fun z =>
        Some (match dp with
              | Comoving => xsub (xadd (logdVcdz z) (Fin (ln (4 * PI)))) (xlog1p z)
              | Euclidean => xadd (xmul (Fin 2) (xln (z_to_DL z))) (xln (dDLdz z))
              end))
  end.

(** _calculate_mass_prior (lines 241-286), one row *)
Definition is_detector_components (mp : mass_prior_t) : bool := match mp with FlatDetectorComponents => true | _ => false end.
Definition is_chirp_ratio (mp : mass_prior_t) : bool := match mp with FlatDetectorChirpRatio => true | _ => false end.
Definition mass_log_prior (r : row) : option X :=
  match mass_prior self with
  | None => Some (Fin 0)
  | Some mp =>
      bind (get_q r) (fun q =>
      if negb (wants "redshift" parameters) then None else
      bind (col r "redshift") (fun z =>
      let lp := Fin 0 in
      bind (if wants "mass_1_source" parameters then
              bind (col r "mass_1_source") (fun m1 =>
                let lp := if is_detector_components mp then xadd lp (xmul (Fin 2) (xlog1p z))
                          else if is_chirp_ratio mp
                          then xsub lp (xadd (xsub (xln m1) (xlog1p z)) (xln (chirp_jacobian q)))
                          else lp in
                Some (if wants "mass_ratio" parameters then xadd lp (xln m1) else lp))
            else if wants "mass_1" parameters then
              bind (col r "mass_1") (fun m1 =>
                let lp := if is_chirp_ratio mp then xsub lp (xadd (xln m1) (xln (chirp_jacobian q))) else lp in
                Some (if wants "mass_ratio" parameters then xadd lp (xln m1) else lp))
            else Some lp)
      (fun lp =>
      Some (if wants "chirp_mass" parameters || wants "chirp_mass_detector" parameters
            then xadd lp (xln (chirp_jacobian q)) else lp))))
  end.

(** _calculate_spin_prior (lines 288-322), one row *)
Definition add_aligned (r : row) (key : string) (lp : option X) : option X :=
  if wants key parameters
  then bind lp (fun lp => bind (col r key) (fun chi => Some (xadd lp (xln (aligned_spin_prior chi)))))
  else lp.
Definition spin_log_prior (r : row) : option X :=
  let lp := if component_spin self then xsub (Fin 0) (Fin (ln 4)) else Fin 0 in
  let lp := if wants "chi_eff" parameters then
      bind (col r "chi_eff") (fun chi_eff =>
      bind (get_q r) (fun q =>
      if wants "chi_p" parameters
      then bind (col r "chi_p") (fun chi_p => Some (xadd lp (xln (chieff_chip_prior chi_eff chi_p q))))
      else Some (xadd lp (xln (chieff_prior chi_eff q)))))
    else Some lp in
  add_aligned r "chi_2" (add_aligned r "chi_1" lp).

(** lines 157-165 of load, one row *)
Definition log_prior (r : row) : option X :=
  bind (distance_log_prior r) (fun d => bind (mass_log_prior r) (fun m => bind (spin_log_prior r) (fun s =>
    Some (xadd (xadd (xadd (Fin 0) d) m) s)))).

(** _subsample (lines 171-184) *)
Definition subsample (f : list row) (seed : Z) : list row :=
  match max_samples self with
  | None => f
  | Some n => if (length f <=? n)%nat then f else map (fun i => nth i f []) (positions seed n (length f))
  end.
(** all the results, or None if there was an error in one *)
Fixpoint sequence {A} (l : list (option A)) : option (list A) :=
  match l with
  | [] => Some []
  | x :: l' => bind x (fun a => bind (sequence l') (fun t => Some (a :: t)))
  end.
(** _validate_columns (lines 186-193) *)
Definition validate (f : frame) : bool := forallb (fun p => wants (alias p) (columns f)) parameters.
(** df[posterior_columns].to_numpy() for one row (line 163) *)
Definition posterior_row (r : row) : option (list X) := sequence (map (col r) parameters).
(** lines 150-164, one event.  The rows are treated one at a time, so that an error from a column that is
    missing is not seen when the file has no rows. *)
Definition load_event (f : frame) (seed : Z) : option (list (list X) * list X) :=
  if negb (validate f) then None else
  let df := subsample (rows f) seed in
  bind (sequence (map log_prior df)) (fun lps =>
  bind (sequence (map posterior_row df)) (fun data => Some (data, lps))).
(** load (lines 99-169): for i, event in enumerate(filenames), seed + i *)
Fixpoint load_from (i : nat) (files : list frame) (seed : Z) : option (list (list (list X)) * list (list X)) :=
  match files with
  | [] => Some ([], [])
  | f :: rest =>
      bind (load_event f (seed + Z.of_nat i)) (fun e =>
      bind (load_from (S i) rest seed) (fun t => Some (fst e :: fst t, snd e :: snd t)))
  end.
Definition load (files : list frame) (seed : Z) := load_from 0 files seed.
End Loader.
