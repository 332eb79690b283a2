(** Vocabulary for the hybrid population models: densities of their blocks, zero outside the ranges
    of the coordinates. *)
From Coq Require Import String Reals List.
From Verif Require Import Model_X Spec_X Model_Guru Model_Gauss Model_Joint Model_Spin Model_Hybrid.
Import ListNotations.
Open Scope R_scope.

(** the value of a parameter that is present *)
Definition par (ps : params) (name : string) : R := match dget ps name with Some r => r | None => 0 end.
Definition has (ps : params) (names : list string) : Prop := forall n, In n names -> exists r, dget ps n = Some r.
(** [v] if lo <= x <= hi, else zero *)
Definition within (lo hi x v : R) : R := if Rle_dec lo x then if Rle_dec x hi then v else 0 else 0.

Definition uniform (lo hi x : R) : R := within lo hi x (/ (hi - lo)).
Definition truncated_normal (loc scale lo hi x : R) : R :=
  within lo hi x (norm_pdf x loc scale / (ndtr ((hi - loc) / scale) - ndtr ((lo - loc) / scale))).
(** [B]: the value of the Beta function *)
Definition beta_density (a b B x : R) : R := within 0 1 x (Rpower x (a - 1) * Rpower (1 - x) (b - 1) / B).
(** a fraction zeta of aligned pairs, the rest isotropic *)
Definition tilts (zeta loc scale minimum t1 t2 : R) : R :=
  (1 - zeta) * (uniform minimum 1 t1 * uniform minimum 1 t2)
  + zeta * (truncated_normal loc scale minimum 1 t1 * truncated_normal loc scale minimum 1 t2).
(** product over coordinates *)
Fixpoint product_at (f : coord -> R -> R) (cs : list coord) (xs : list R) : R :=
  match cs, xs with c :: cs, x :: xs => f c x * product_at f cs xs | _, _ => 1 end.
(** masses: mmin <= m1 q, q <= 1, m1 <= mmax *)
Definition on_masses (mmin mmax m1 q v : R) : R :=
  if Rlt_dec 0 m1 then within mmin m1 (m1 * q) (within mmin mmax m1 v) else 0.

(** a factor of a block that is switched on *)
Definition when (use : bool) (v : R) : R := if use then v else 1.
(** the coordinates of an event, in order; blocks that are switched off have none *)
Definition event (use_spin use_tilt use_eccentricity use_redshift : bool) (m1 q a1 a2 t1 t2 e z : R) : list X :=
  map Fin ([m1; q] ++ (if use_spin then [a1; a2] else []) ++ (if use_tilt then [t1; t2] else [])
           ++ (if use_eccentricity then [e] else []) ++ (if use_redshift then [z] else [])).
(** density of a mixture *)
Definition density (mix : list component) (v : list X) : R := wexp (mixture_log_prob true mix v).

(** the parameters each model needs *)
Definition peak_names (use_spin use_redshift use_tilt use_eccentricity : bool) : list string :=
  (["log_rate"; "alpha"; "beta"; "delta"; "lambda_peak"; "loc"; "mmax"; "mmin"; "scale"]%string
   ++ (if use_spin then ["chi_mean"; "chi_variance"]%string else [])
   ++ (if use_tilt then ["cos_tilt_zeta"; "cos_tilt_scale"]%string else [])
   ++ (if use_eccentricity then ["eccentricity_scale"]%string else [])
   ++ (if use_redshift then ["z_max"; "kappa"]%string else []))%list.
Definition full_names (use_spin use_redshift use_tilt use_eccentricity : bool) : list string :=
  (["log_rate"; "alpha1"; "alpha2"; "beta"; "loc1"; "loc2"; "scale1"; "scale2"; "delta_m1"; "delta_m2";
    "lambda_0"; "lambda_1"; "m1min"; "m2min"; "mmax"; "mbreak"]%string
   ++ (if use_spin then ["chi_loc"; "chi_scale"]%string else [])
   ++ (if use_tilt then ["cos_tilt_zeta"; "cos_tilt_loc"; "cos_tilt_scale"]%string else [])
   ++ (if use_eccentricity then ["eccentricity_loc"; "eccentricity_scale"]%string else [])
   ++ (if use_redshift then ["z_max"; "kappa"]%string else []))%list.
