(** gwkokab/poisson_mean/_analytic_spin_prior.py: jaxspence (144-166), cspence_series0 (169-201),
    cspence_series1 (204-236) and the constants (20-22), for a real argument z >= 0 and in exact arithmetic.
    Simplified: the complex arguments and the roundings are left out; TOL is only used by the two functions
    called condition, which nothing calls. *)
From Coq Require Import Reals.
Open Scope R_scope.

(** PISQ_6 (21), as the decimal number in the source *)
Definition PISQ_6 : R := 16449340668482264365 / 10 ^ 19.
(** MAX_ITER (22) *)
Definition MAX_ITER : nat := 500.

(** jax.lax.fori_loop: body (i, state) for i from lower to upper - 1 *)
Fixpoint fori {A : Type} (k i : nat) (body : nat -> A -> A) (s : A) : A :=
  match k with O => s | S k' => fori k' (S i) body (body i s) end.
Definition fori_loop {A : Type} (lower upper : nat) (body : nat -> A -> A) (s : A) : A :=
  fori (upper - lower) lower body s.

(** the state (n, zfac, term1, sum1, term2, sum2) of cspence_series0; term1 and term2 are only written *)
Record state0 := mk0 { n0 : nat; zfac0 : R; sum1 : R; sum2 : R }.
(** body (182-189) *)
Definition body0 (z_ : R) (_ : nat) (s : state0) : state0 :=
  let zfac := zfac0 s * z_ in
  let term1 := zfac / INR (n0 s) ^ 2 in
  let term2 := zfac / INR (n0 s) in
  mk0 (n0 s + 1) zfac (sum1 s + term1) (sum2 s + term2).
(** cspence_series0 (169-201) *)
Definition cspence_series0 (z : R) : R :=
  let z_ := if Req_EM_T z 0 then / 100 else z in
  let s := fori_loop 1 MAX_ITER (body0 z_) (mk0 1 1 0 0) in
  if Req_EM_T z 0 then PISQ_6 else PISQ_6 - sum1 s + ln z_ * sum2 s.

(** the state (n, zfac, res, term) of cspence_series1; term is only written *)
Record state1 := mk1 { n1 : nat; zfac1 : R; res1 : R }.
(** body (221-226) *)
Definition body1 (z_ : R) (_ : nat) (s : state1) : state1 :=
  let zfac := zfac1 s * z_ in
  let term := ((zfac / INR (n1 s) ^ 2) / INR (n1 s + 1) ^ 2) / INR (n1 s + 2) ^ 2 in
  mk1 (n1 s + 1) zfac (res1 s + term).
(** cspence_series1 (204-236) *)
Definition cspence_series1 (z : R) : R :=
  let z_ := 1 - (if Req_EM_T z 1 then 1 - / 10 ^ 10 else z) in
  let zz := z_ ^ 2 in
  let res := res1 (fori_loop 1 MAX_ITER (body1 z_) (mk1 1 1 0)) in
  let res := res * (4 * zz) in
  let res := res + (4 * z_ + 575 / 100 * zz + 3 * (1 - zz) * ln (1 - z_)) in
  let res := res / (1 + 4 * z_ + zz) in
  if Req_EM_T z 1 then 0 else res.

(** jaxspence (144-166) *)
Definition jaxspence (z : R) : R :=
  if Rlt_dec (Rabs z) (/ 2) then cspence_series0 z
  else if Rlt_dec 1 (Rabs (1 - z)) then - cspence_series1 (z / (z - 1)) - PISQ_6 - / 2 * ln (z - 1) ^ 2
  else cspence_series1 z.
