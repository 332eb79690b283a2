(** Model of gwkokab/utils/transformations.py (mass conversions) and of the transforms in
    gwkokab/models/transformations.py.  A point of a two- or three-dimensional event is a list;
    leading (batch) axes are not modelled. *)
From Coq Require Import Reals List Bool Arith.
From Verif Require Import Model_X Model_Joint Model_Constraints.
Import ListNotations.
Open Scope R_scope.

(** ** scalar primitives *)
Definition xeqb (a b : X) : bool :=
  match a, b with
  | Fin x, Fin y => if Req_EM_T x y then true else false
  | PInf, PInf | NInf, NInf => true
  | _, _ => false
  end.
(** jnp.sqrt *)
Definition xsqrt (a : X) : X :=
  match a with
  | Fin r => if Rlt_dec r 0 then NaN else Fin (sqrt r)
  | PInf => PInf | _ => NaN
  end.
(** jnp.power(a, e) for a constant, non-integer exponent [e] (0.6, -0.2, -0.6) *)
Definition xpow (a : X) (e : R) : X :=
  match a with
  | Fin r => if Rlt_dec 0 r then Fin (Rpower r e)
             else if Req_EM_T r 0 then (if Rlt_dec 0 e then Fin 0 else PInf) else NaN
  | PInf => if Rlt_dec 0 e then PInf else Fin 0
  | NInf => if Rlt_dec 0 e then PInf else Fin 0
  | NaN => NaN
  end.
(** jnp.power(a, -2.0) *)
Definition xpow_m2 (a : X) : X := xdiv (Fin 1) (xmul a a).
Definition xlog1p (a : X) : X := xln (xadd (Fin 1) a).
Definition xabs (a : X) : X :=
  match a with Fin r => Fin (Rabs r) | NaN => NaN | _ => PInf end.

(** ** gwkokab/utils/transformations.py *)
(** m1_times_m2, 10-15 *)
Definition m1_times_m2 (m1 m2 : X) : X := xmul m1 m2.
(** total_mass, 18-23 *)
Definition total_mass (m1 m2 : X) : X := xadd m1 m2.
(** _mass_ratio, 26-28 *)
Definition mass_ratio (m1 m2 : X) : X :=
  let safe_m1 := if xeqb m1 (Fin 0) then Fin 1 else m1 in
  if xeqb m1 (Fin 0) then PInf else xdiv m2 safe_m1.
(** _chirp_mass, 39-42 *)
Definition chirp_mass (m1 m2 : X) : X :=
  xmul (xpow (m1_times_m2 m1 m2) (3/5)) (xpow (total_mass m1 m2) (-(1/5))).
(** _log_chirp_mass, 53-55 *)
Definition log_chirp_mass (m1 m2 : X) : X :=
  xsub (xmul (Fin (3/5)) (xadd (xln m1) (xln m2))) (xmul (Fin (1/5)) (xln (total_mass m1 m2))).
(** _symmetric_mass_ratio, 66-69 *)
Definition symmetric_mass_ratio (m1 m2 : X) : X :=
  xmul (m1_times_m2 m1 m2) (xpow_m2 (total_mass m1 m2)).
(** _reduced_mass, 80-83 *)
Definition reduced_mass (m1 m2 : X) : X :=
  let M := total_mass m1 m2 in
  if xeqb M (Fin 0) then PInf else xdiv (m1_times_m2 m1 m2) M.
(** _delta_m, 94-97 *)
Definition delta_m (m1 m2 : X) : X :=
  let diff := xsub m1 m2 in
  let M := total_mass m1 m2 in
  if xeqb M (Fin 0) then PInf else xdiv diff M.
(** _delta_m_to_symmetric_mass_ratio, 108-111 *)
Definition delta_m_to_symmetric_mass_ratio (d : X) : X :=
  xmul (Fin (1/4)) (xsub (Fin 1) (xmul d d)).
(** _symmetric_mass_ratio_to_delta_m, 122-125 *)
Definition symmetric_mass_ratio_to_delta_m (eta : X) : X :=
  xsqrt (xsub (Fin 1) (xmul eta (Fin 4))).
(** _m_det_z_to_m_source, 136-139 *)
Definition m_det_z_to_m_source (m_det z : X) : X :=
  let safe := if xeqb z (Fin (-1)) then Fin 1 else xadd (Fin 1) z in
  if xeqb z (Fin (-1)) then PInf else xdiv m_det safe.
(** _m_source_z_to_m_det, 150-151 *)
Definition m_source_z_to_m_det (m_source z : X) : X := xmul m_source (xadd (Fin 1) z).
(** m1_q_to_m2, 162-167 *)
Definition m1_q_to_m2 (m1 q : X) : X := xmul m1 q.
(** _m2_q_to_m1, 170-173 *)
Definition m2_q_to_m1 (m2 q : X) : X :=
  let safe_q := if xeqb q (Fin 0) then Fin 1 else q in
  if xeqb q (Fin 0) then PInf else xdiv m2 safe_q.
(** Mc_eta_to_m1_m2, 294-318 *)
Definition Mc_eta_to_m1_m2 (Mc eta : X) : X * X :=
  let delta_sq := xsub (Fin 1) (xmul (Fin 4) eta) in
  let delta_sq := xmax delta_sq (Fin 0) in
  let delta := xsqrt delta_sq in
  let half_Mc := xmul (Fin (1/2)) Mc in
  let p := xmul half_Mc (xpow eta (-(3/5))) in
  let m2 := xmul p (xsub (Fin 1) delta) in
  let m1 := xmul p (xadd (Fin 1) delta) in
  (m1, m2).
(** _eta_from_q, 321-326 *)
Definition eta_from_q (q : X) : X :=
  let safe := if xleb q (Fin 0) then Fin 1 else q in
  xexp (if xleb q (Fin 0) then NInf else xsub (xln safe) (xmul (Fin 2) (xlog1p safe))).
(** chi_costilt_to_chiz, 184-189 *)
Definition chi_costilt_to_chiz (chi costilt : X) : X := xmul chi costilt.
(** _m1_m2_chi1z_chi2z_to_chiminus, 192-199 *)
Definition chiminus (m1 m2 chi1z chi2z : X) : X :=
  let M := total_mass m1 m2 in
  let diff := xsub (xmul m1 chi1z) (xmul m2 chi2z) in
  if xeqb M (Fin 0) then PInf else xdiv diff M.
(** _chieff, 214-221 *)
Definition chieff (m1 m2 chi1z chi2z : X) : X :=
  let M := total_mass m1 m2 in
  let m_dot_chi := xadd (xmul m1 chi1z) (xmul m2 chi2z) in
  if xeqb M (Fin 0) then PInf else xdiv m_dot_chi M.
(** m1_m2_chi1_chi2_costilt1_costilt2_to_chieff and _to_chiminus, 234-269 *)
Definition chieff_tilts (m1 m2 chi1 chi2 c1 c2 : X) : X :=
  chieff m1 m2 (chi_costilt_to_chiz chi1 c1) (chi_costilt_to_chiz chi2 c2).
Definition chiminus_tilts (m1 m2 chi1 chi2 c1 c2 : X) : X :=
  chiminus m1 m2 (chi_costilt_to_chiz chi1 c1) (chi_costilt_to_chiz chi2 c2).
(** m1_m2_chieff_chiminus_to_chi1z_chi2z, 272-291 *)
Definition chi1z_chi2z (m1 m2 chieff chiminus : X) : X * X :=
  let half_M := xmul (Fin (1/2)) (total_mass m1 m2) in
  (xdiv (xmul half_M (xadd chieff chiminus)) m1, xdiv (xmul half_M (xsub chieff chiminus)) m2).
(** sin_tilt, 400-405, and chi_p_from_components, 408-432 *)
Definition sin_tilt (c : X) : X := xsqrt (xsub (Fin 1) (xmul c c)).
Definition chi_p_from_components (a1 c1 a2 c2 q : X) : X :=
  let t1 := xmul a1 (sin_tilt c1) in
  let k := xdiv (xadd (Fin 3) (xmul (Fin 4) q)) (xadd (Fin 4) (xmul (Fin 3) q)) in
  let t2 := xmul (xmul (xmul k q) a2) (sin_tilt c2) in
  xmax t1 t2.

(** ** transforms, gwkokab/models/transformations.py *)
Record transform := mktransform {
  t_domain : list X -> bool;
  t_codomain : list X -> bool;
  t_call : list X -> list X;
  t_inverse : list X -> list X;
  (** log_abs_det_jacobian(x, y) *)
  t_ladj : list X -> list X -> X }.

(** numpyro's constraints.independent(interval(lo, hi), 1) and open_interval: all(lo <= x <= hi) *)
Definition intervals (bounds : list (X * X)) (x : list X) : bool :=
  Nat.eqb (length x) (length bounds)
  && forallb (fun p => xleb (fst (snd p)) (fst p) && xleb (fst p) (snd (snd p))) (combine x bounds).
Definition open_intervals (bounds : list (X * X)) (x : list X) : bool :=
  Nat.eqb (length x) (length bounds)
  && forallb (fun p => xltb (fst (snd p)) (fst p) && xltb (fst p) (snd (snd p))) (combine x bounds).
(** positive_decreasing_vector on events of size [n] *)
Definition pos_decreasing (n : nat) (x : list X) : bool :=
  Nat.eqb (length x) n && positive_decreasing_vector x.
Definition positives (n : nat) (x : list X) : bool := Nat.eqb (length x) n && positive_vector x.

(** jnp.unstack of a pair, triple; another size raises *)
Definition on2 (f : X -> X -> list X) (x : list X) : list X :=
  match x with [a; b] => f a b | _ => [] end.
Definition on3 (f : X -> X -> X -> list X) (x : list X) : list X :=
  match x with [a; b; c] => f a b c | _ => [] end.
Definition at_ (x : list X) (i : nat) : X := nth i x NaN.

Section Transforms.
(** jnp.finfo(jnp.result_type(float)).max *)
Variable fmax : R.

(** PrimaryMassAndMassRatioToComponentMassesTransform, 243-289 *)
Definition m1q_to_m1m2 := mktransform
  (intervals [(Fin 0, Fin fmax); (Fin 0, Fin 1)])
  (pos_decreasing 2)
  (on2 (fun m1 q => [m1; xmul m1 q]))
  (on2 (fun m1 m2 => [m1; mass_ratio m1 m2]))
  (fun x y => xln (xabs (at_ x 0))).

(** ComponentMassesToChirpMassAndSymmetricMassRatio, 292-335 *)
Definition m1m2_to_Mc_eta := mktransform
  (pos_decreasing 2)
  (intervals [(Fin 0, Fin fmax); (Fin 0, Fin (1/4))])
  (on2 (fun m1 m2 => [chirp_mass m1 m2; symmetric_mass_ratio m1 m2]))
  (on2 (fun Mc eta => let '(m1, m2) := Mc_eta_to_m1_m2 Mc eta in [m1; m2]))
  (fun x y => let Mc := at_ y 0 in let eta := at_ y 1 in
              xsub (xadd (xmul (Fin (6/5)) (xln eta)) (xmul (Fin (1/2)) (xlog1p (xmul (Fin (-4)) eta)))) (xln Mc)).

(** DeltaToSymmetricMassRatio, 338-372 (a scalar is a list of one element) *)
Definition delta_to_eta := mktransform
  (intervals [(Fin 0, Fin 1)])
  (intervals [(Fin 0, Fin (1/4))])
  (fun x => match x with [d] => [xmul (xsub (Fin 1) (xmul d d)) (Fin (1/4))] | _ => [] end)
  (fun y => match y with [eta] => [xsqrt (xsub (Fin 1) (xmul (Fin 4) eta))] | _ => [] end)
  (fun x y => xsub (xln (at_ x 0)) (xln (Fin 2))).

(** ComponentMassesToChirpMassAndDelta, 375-422 *)
Definition m1m2_to_Mc_delta := mktransform
  (pos_decreasing 2)
  (intervals [(Fin 0, Fin fmax); (Fin 0, Fin 1)])
  (on2 (fun m1 m2 => [chirp_mass m1 m2; delta_m m1 m2]))
  (on2 (fun Mc delta =>
          let eta := delta_m_to_symmetric_mass_ratio delta in
          let '(m1, m2) := Mc_eta_to_m1_m2 Mc eta in [m1; m2]))
  (fun x y => let M := total_mass (at_ x 0) (at_ x 1) in
              xadd (xadd (xln (Fin 2)) (xln (at_ y 0))) (xmul (Fin (-2)) (xln M))).

(** SourceMassAndRedshiftToDetectedMassAndRedshift, 425-459 *)
Definition source_to_detected := mktransform
  (positives 2) (positives 2)
  (on2 (fun m z => [xmul m (xadd (Fin 1) z); z]))
  (on2 (fun m z => [xdiv m (xadd (Fin 1) z); z]))
  (fun x y => xlog1p (at_ x 1)).

(** ComponentMassesAndRedshiftToDetectedMassAndRedshift, 462-498 *)
Definition component_source_to_detected := mktransform
  (positives 3) (positives 3)
  (on3 (fun m1 m2 z => [xmul m1 (xadd (Fin 1) z); xmul m2 (xadd (Fin 1) z); z]))
  (on3 (fun m1 m2 z => [xdiv m1 (xadd (Fin 1) z); xdiv m2 (xadd (Fin 1) z); z]))
  (fun x y => xmul (Fin 2) (xlog1p (at_ x 2))).

(** ComponentMassesToPrimaryMassAndMassRatio, 501-539 *)
Definition m1m2_to_m1q := mktransform
  (pos_decreasing 2)
  (open_intervals [(Fin 0, Fin fmax); (Fin 0, Fin 1)])
  (on2 (fun m1 m2 => [m1; mass_ratio m1 m2]))
  (on2 (fun m1 q => [m1; m1_q_to_m2 m1 q]))
  (fun x y => xopp (xln (xabs (at_ x 0)))).

(** ComponentMassesToMassRatioAndSecondaryMass, 542-585 *)
Definition m1m2_to_qm2 := mktransform
  (pos_decreasing 2)
  (intervals [(Fin 0, Fin 1); (Fin 0, Fin fmax)])
  (on2 (fun m1 m2 => [mass_ratio m1 m2; m2]))
  (on2 (fun q m2 => [m2_q_to_m1 m2 q; m2]))
  (fun x y => xsub (xln (at_ y 0)) (xln (at_ x 0))).

(** ComponentMassesToTotalMassAndMassRatio, 588-625 *)
Definition m1m2_to_Mq := mktransform
  (pos_decreasing 2)
  (intervals [(Fin 0, Fin fmax); (Fin 0, Fin 1)])
  (on2 (fun m1 m2 => [total_mass m1 m2; mass_ratio m1 m2]))
  (on2 (fun M q =>
          let safe_q := if xeqb q (Fin (-1)) then Fin 1 else q in
          let m1 := if xeqb q (Fin (-1)) then PInf else xdiv M (xadd (Fin 1) safe_q) in
          [m1; m1_q_to_m2 m1 q]))
  (fun x y => xsub (xln (xadd (Fin 1) (at_ y 1))) (xln (at_ x 0))).
End Transforms.

(** RedshiftToLuminosityDistance, 628-663; [z_to_DL], [DL_to_z], [z_to_Dc], [dDcdz] are the
    methods of the cosmology *)
Definition z_to_DL_transform (z_to_DL DL_to_z z_to_Dc dDcdz : X -> X) := mktransform
  (positives 1) (positives 1)
  (fun x => match x with [z] => [z_to_DL z] | _ => [] end)
  (fun y => match y with [d] => [DL_to_z d] | _ => [] end)
  (fun x y => let z := at_ x 0 in xln (xadd (z_to_Dc z) (xmul (xadd (Fin 1) z) (dDcdz z)))).

(** BlockTransform, 67-240, on one row of a two-dimensional array, where jnp.column_stack puts the
    pieces next to each other *)
Section Block.
Variable ts : list transform.
Variable slices : list slice.
(** 155-172 *)
Definition block_call (x : list X) : list X :=
  List.concat (map (fun p => t_call (fst p) (take_slice x (snd p))) (combine ts slices)).
(** 174-191 *)
Definition block_inverse (y : list X) : list X :=
  List.concat (map (fun p => t_inverse (fst p) (take_slice y (snd p))) (combine ts slices)).
(** 193-221 *)
Definition block_ladj (x y : list X) : X :=
  fold_left (fun acc p => xadd acc (t_ladj (fst p) (take_slice x (snd p)) (take_slice y (snd p))))
            (combine ts slices) (Fin 0).
(** domain and codomain: all_constraint of the parts, 148-153 *)
Definition block_domain (x : list X) : bool :=
  fold_left (fun acc p => acc && t_domain (fst p) (take_slice x (snd p))) (combine ts slices) true.
Definition block_codomain (x : list X) : bool :=
  fold_left (fun acc p => acc && t_codomain (fst p) (take_slice x (snd p))) (combine ts slices) true.
End Block.

(** biject_to for the constraints of constraints.py, 666-710, from numpyro's AbsTransform,
    OrderedTransform (first entry, then exponentials, cumulative sum), PowerTransform(-1),
    SigmoidTransform and AffineTransform *)
Fixpoint cumsum (acc : X) (l : list X) : list X :=
  match l with [] => [] | a :: t => let s := xadd acc a in s :: cumsum s t end.
Definition ordered (x : list X) : list X :=
  match x with [] => [] | a :: t => cumsum (Fin 0) (a :: map xexp t) end.
Definition reciprocal (a : X) : X := xdiv (Fin 1) a.
Definition sigmoid (a : X) : X := xdiv (Fin 1) (xadd (Fin 1) (xexp (xopp a))).
Definition biject_decreasing (x : list X) : list X := map reciprocal (ordered (map xabs x)).
Definition biject_increasing (x : list X) : list X := ordered (map xabs x).
Definition affine (loc scale a : X) : X := xadd loc (xmul scale a).
Definition biject_mass_sandwich (mmin mmax : X) (x : list X) : list X :=
  map (fun a => affine mmin (xsub mmax mmin) (sigmoid a)) (biject_decreasing x).
Definition biject_mass_ratio_sandwich (mmin mmax : X) : list X -> list X := fun x =>
  match map sigmoid (biject_decreasing x) with
  | [a; b] => [affine mmin (xsub mmax mmin) a; affine (Fin 0) (Fin 1) b]
  | _ => []
  end.
