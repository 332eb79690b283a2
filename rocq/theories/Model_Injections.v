(** Sensitivity injections (src/gwkokab/poisson_mean/_injection_based_helper.py and _injection_based.py). *)
From Coq Require Import String Ascii.
From Coq Require Import Reals List Bool Arith.
From Verif Require Import Model_X Model_Joint Model_Constraints Model_Transform Model_Population.
Import ListNotations.
Open Scope R_scope.

(** ** Python dictionaries with string keys, in insertion order *)
Section Dict.
Context {A : Type}.
Fixpoint dget (d : list (string * A)) (k : string) : option A :=
  match d with [] => None | (k', v) :: t => if String.eqb k' k then Some v else dget t k end.
Fixpoint dset (d : list (string * A)) (k : string) (v : A) : list (string * A) :=
  match d with
  | [] => [(k, v)]
  | (k', v') :: t => if String.eqb k' k then (k', v) :: t else (k', v') :: dset t k v
  end.
Definition has_key (d : list (string * A)) (k : string) : bool := existsb (fun kv => String.eqb (fst kv) k) d.
End Dict.

(** ** str.lower (ASCII), "sub in s", str.startswith, str.replace("far", "ifar") *)
Definition lower_char (c : ascii) : ascii :=
  let n := nat_of_ascii c in if (65 <=? n)%nat && (n <=? 90)%nat then ascii_of_nat (n + 32) else c.
Fixpoint lower (s : string) : string :=
  match s with EmptyString => EmptyString | String c t => String (lower_char c) (lower t) end.
Fixpoint contains (sub s : string) : bool :=
  String.prefix sub s || match s with EmptyString => false | String _ t => contains sub t end.
Fixpoint replace_far (s : string) : string :=
  match s with
  | EmptyString => EmptyString
  | String c t =>
      match t with
      | String a (String r u) =>
          if Ascii.eqb c "f" && Ascii.eqb a "a" && Ascii.eqb r "r" then ("ifar" ++ replace_far u)%string
          else String c (replace_far t)
      | _ => String c (replace_far t)
      end
  end.

(** ** get_found_injections (lines 72-118).  [data] holds the numeric columns of the file (a dict, as in
    the "events" format), [names] the comparison of the "name" column with b"o1" and b"o2" when there is one. *)
Notation column := (list X).
Definition is_ifar_key (k : string) : bool := contains "ifar" (lower k).
Definition is_far_key (k : string) : bool :=
  String.prefix "far_" (lower k) || ends_with (lower k) "_far" || contains "_far_" (lower k).
Definition above (thr : X) (c : column) : list bool := map (fun x => xltb thr x) c.
Definition orv (a b : list bool) : list bool := map (fun p => fst p || snd p) (combine a b).
Definition andv (a b : list bool) : list bool := map (fun p => fst p && snd p) (combine a b).
(** lines 92-95 *)
Definition add_ifar (data : list (string * column)) : list (string * column) :=
  fold_left (fun d k => match dget d k with
                        | Some c => dset d (replace_far k) (map (fun x => xdiv (Fin 1) x) c)
                        | None => d
                        end)
            (filter is_far_key (map fst data)) data.
(** line 97 *)
Definition ifar_or_huge (t : option X) : X := match t with Some x => x | None => Fin (10 ^ 300) end.
(** lines 98-110 *)
Definition found_by_ifar (data : list (string * column)) (names : option (list bool)) (n : nat) (ifar : X) (snr : option X) : option (list bool) :=
  let found := fold_left (fun f kc => if is_ifar_key (fst kc) then orv f (above ifar (snd kc)) else f) data (repeat false n) in
  match (match names with
         | None => Some found
         | Some gwtc1 => match dget data "optimal_snr_net", snr with
                         | Some c, Some s => Some (orv found (andv gwtc1 (above s c)))
                         | _, _ => None
                         end
         end) with
  | None => None
  | Some found =>
      match dget data "semianalytic_observed_phase_maximized_snr_net", snr with
      | None, _ => Some found
      | Some c, Some s => Some (orv found (above s c))
      | Some _, None => None
      end
  end.
Definition get_found_injections (data : list (string * column)) (names : option (list bool)) (n : nat) (ifar snr : option X) : option (list bool) :=
  let has_ifar := existsb is_ifar_key (map fst data) in
  let far_keys := filter is_far_key (map fst data) in
  if has_ifar then found_by_ifar data names n (ifar_or_huge ifar) snr
  else if (0 <? length far_keys)%nat then found_by_ifar (add_ifar data) names n (ifar_or_huge ifar) snr
  else match snr with
       | Some s =>
           match dget data "observed_phase_maximized_snr_net", dget data "observed_snr_net" with
           | Some c, _ => Some (orv (repeat false n) (above s c))
           | None, Some c => Some (orv (repeat false n) (above s c))
           | None, None => Some (repeat false n)
           end
       | None => None
       end.

(** ** load_injection_data: the quantities of one found injection (lines 251-307).
    [spin_x] and [spin_y] may be absent from the file. *)
Definition square (x : X) : X := xmul x x.
Definition spin_magnitude (x y z : X) : X := xsqrt (xadd (xadd (square x) (square y)) (square z)).
(** lines 254-255: an absent component is np.zeros(n_found), then indexed with the mask of all injections;
    NumPy refuses a mask of another length *)
Definition masked {A} (mask : list bool) (c : list A) : option (list A) :=
  if (length mask =? length c)%nat then Some (map snd (filter fst (combine mask c))) else None.
Definition count (mask : list bool) : nat := length (filter (fun b => b) mask).
Definition spin_component (data : list (string * column)) (k : string) (mask : list bool) : option column :=
  masked mask (match dget data k with Some c => c | None => repeat (Fin 0) (count mask) end).
Definition cos_tilt (z a : X) : X := xdiv z a.
(** lines 266-268, 273-280, 282-300 *)
Inductive draw := SamplingPdf (p : X) | LnPdraw (lp : X) | LnParts (parts : list X).
Definition xsin_arccos (c : X) : X := xsqrt (xsub (Fin 1) (xmul c c)).
Definition spin_jacobian (a1 a2 : X) : X := xmul (xmul (Fin (2 * PI)) a1) a2.
Definition draw_prior (d : draw) (a1 a2 c1 c2 : X) : X :=
  match d with
  | SamplingPdf p => xmul p (square (spin_jacobian a1 a2))
  | LnPdraw lp => xexp (xadd lp (xmul (Fin 2) (xln (spin_jacobian a1 a2))))
  | LnParts parts => xdiv (xdiv (xexp (xsum parts)) (xsin_arccos c1)) (xsin_arccos c2)
  end.
(** lines 302-307 *)
Definition weighted_prior (weights : option X) (p : X) : X :=
  match weights with Some w => xdiv p w | None => xdiv p (Fin 1) end.

(** ** The renaming of the keys (_injection_based.py, lines 36-51) *)
Definition param_mapping (k : string) : string :=
  match dget [("mass_1", "mass_1_source"); ("mass_2", "mass_2_source"); ("mass1_source", "mass_1_source");
              ("mass2_source", "mass_2_source"); ("redshift", "redshift"); ("spin1x", "spin_1x"); ("spin1y", "spin_1y");
              ("spin1z", "spin_1z"); ("spin2x", "spin_2x"); ("spin2y", "spin_2y"); ("spin2z", "spin_2z"); ("z", "redshift")]%string k with
  | Some k' => k'
  | None => k
  end.
Definition rename (d : list (string * X)) : list (string * X) :=
  fold_left (fun acc kv => dset acc (param_mapping (fst kv)) (snd kv)) d [].

(** ** apply_injection_prior (lines 311-399), for one injection.  None is a KeyError. *)
Definition aligned_spin_prior (spin : X) : X := xdiv (xopp (xln (xabs spin))) (Fin 2).
Definition chirp_jacobian (q : X) : X := xdiv (xpow (xadd (Fin 1) q) (1/5)) (xpow q (3/5)).
Section Apply.
Variable chieff_prior : X -> X -> X.            (* chi_effective_prior_from_isotropic_spins(chi_eff, q, amax=1) *)
Variable chieff_chip_prior : X -> X -> X -> X.  (* prior_chieff_chip_isotropic(chi_eff, chi_p, q, amax=1) *)
Variables z_to_DL dDLdz : X -> X.               (* PLANCK_2015_Cosmology() *)
Notation dict := (list (string * X)).
Definition wants (k : string) (ps : list string) : bool := existsb (String.eqb k) ps.
Definition bind {A B} (o : option A) (f : A -> option B) : option B := match o with Some a => f a | None => None end.
(** data["prior"] = f(data["prior"]) *)
Definition update_prior (f : X -> X) (d : dict) : option dict :=
  bind (dget d "prior") (fun p => Some (dset d "prior" (f p))).
(** lines 316-318 *)
Definition step_mass_ratio (d : dict) : option dict :=
  bind (dget d "mass_2_source") (fun m2 => bind (dget d "mass_1_source") (fun m1 =>
    let d := dset d "mass_ratio" (xdiv m2 m1) in update_prior (fun p => xmul p m1) d)).
(** lines 319-322 *)
Definition step_chirp_mass (d : dict) : option dict :=
  bind (dget d "mass_ratio") (fun q => bind (dget d "mass_1_source") (fun m1 =>
    let j := chirp_jacobian q in update_prior (fun p => xmul p j) (dset d "chirp_mass" (xdiv m1 j)))).
(** lines 323-367 *)
Definition step_effective_spin (ps : list string) (d : dict) : option dict :=
  bind (dget d "mass_1_source") (fun m1 => bind (dget d "mass_2_source") (fun m2 =>
  bind (dget d "a_1") (fun a1 => bind (dget d "a_2") (fun a2 =>
  bind (dget d "cos_tilt_1") (fun c1 => bind (dget d "cos_tilt_2") (fun c2 =>
    let ce := chieff_tilts m1 m2 a1 a2 c1 c2 in
    let d := dset d "chi_eff" ce in
    let d := match dget d "mass_ratio" with Some _ => d | None => dset d "mass_ratio" (xdiv m2 m1) end in
    bind (dget d "mass_ratio") (fun q =>
    let dp := if wants "chi_p" ps
              then let cp := chi_p_from_components a1 c1 a2 c2 q in (dset d "chi_p" cp, chieff_chip_prior ce cp q)
              else (d, chieff_prior ce q) in
    update_prior (fun p => xmul p (xdiv (snd dp) (Fin ((1/2) ^ 2 * (1/1) ^ 2)))) (fst dp)))))))).
(** lines 368-373 *)
Definition step_chi (chi a c : string) (d : dict) : option dict :=
  bind (dget d a) (fun va => bind (dget d c) (fun vc =>
    let x := xmul va vc in
    update_prior (fun p => xmul p (xmul (Fin 2) (aligned_spin_prior x))) (dset d chi x))).
(** lines 374-378 *)
Definition step_mass_1_detected (d : dict) : option dict :=
  bind (dget d "mass_1_source") (fun m1 => bind (dget d "redshift") (fun z =>
    update_prior (fun p => xdiv p (xadd (Fin 1) z)) (dset d "mass_1" (xmul m1 (xadd (Fin 1) z))))).
(** lines 379-383 *)
Definition step_mass_2_detected (d : dict) : option dict :=
  bind (dget d "mass_1") (fun m1d => bind (dget d "mass_ratio") (fun q =>
    update_prior (fun p => xdiv p m1d) (dset d "mass_2" (xmul m1d q)))).
(** lines 384-393 *)
Definition step_chirp_mass_detector (d : dict) : option dict :=
  bind (dget d "mass_ratio") (fun q =>
    let j := chirp_jacobian q in
    match dget d "mass_1" with
    | Some m1d => update_prior (fun p => xmul p j) (dset d "chirp_mass_detector" (xdiv m1d j))
    | None => bind (dget d "mass_1_source") (fun m1 => bind (dget d "redshift") (fun z =>
        update_prior (fun p => xmul p (xdiv j (xadd (Fin 1) z)))
          (dset d "chirp_mass_detector" (xdiv (xmul m1 (xadd (Fin 1) z)) j))))
    end).
(** lines 394-398 *)
Definition step_luminosity_distance (d : dict) : option dict :=
  bind (dget d "redshift") (fun z => update_prior (fun p => xdiv p (dDLdz z)) (dset d "luminosity_distance" (z_to_DL z))).
Definition guard (k : string) (ps : list string) (step : dict -> option dict) (o : option dict) : option dict :=
  if wants k ps then bind o step else o.
Definition apply_injection_prior (d : dict) (ps : list string) : option dict :=
  guard "luminosity_distance" ps step_luminosity_distance
  (guard "chirp_mass_detector" ps step_chirp_mass_detector
  (guard "mass_2" ps step_mass_2_detected
  (guard "mass_1" ps step_mass_1_detected
  (guard "chi_2" ps (step_chi "chi_2" "a_2" "cos_tilt_2")
  (guard "chi_1" ps (step_chi "chi_1" "a_1" "cos_tilt_1")
  (guard "chi_eff" ps (step_effective_spin ps)
  (guard "chirp_mass" ps step_chirp_mass
  (guard "mass_ratio" ps step_mass_ratio (Some d))))))))).
(** lines 54-58 of _injection_based.py: the coordinates of one injection and its log weight *)
Definition coordinates (d : dict) (ps : list string) : option (list X) :=
  fold_right (fun p acc => bind (dget d p) (fun v => bind acc (fun l => Some (v :: l)))) (Some []) ps.
Definition log_weight (d : dict) : option X := bind (dget d "prior") (fun p => Some (xln p)).
End Apply.
