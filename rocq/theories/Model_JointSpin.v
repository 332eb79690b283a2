(** Model of prior_chieff_chip_isotropic, gwkokab/poisson_mean/_analytic_spin_prior.py:25-141, 239-256,
    for one chi_eff, chi_p, q and amax.  The complex dilogarithm (scipy.special.spence at 1 - z) is a parameter. *)
From Coq Require Import Reals Bool.
From Coquelicot Require Import Coquelicot.
From Verif Require Import Model_X Model_Transform Model_Population.
Open Scope R_scope.

(** np.log of a complex number: logarithm of the modulus and principal argument *)
Definition carg (z : C) : R :=
  let (x, y) := z in
  if Rlt_dec 0 x then atan (y / x)
  else if Rlt_dec 0 y then PI / 2 - atan (x / y)
  else if Rlt_dec y 0 then - (PI / 2) - atan (x / y)
  else if Rlt_dec x 0 then PI else 0.
Definition clog (z : C) : C := (ln (Cmod z), carg z).
(** x == v, for floats *)
Definition isv (x v : R) : bool := if Req_EM_T x v then true else false.

Section Prior.
Variable Li2 : C -> C.

(** g, 123-141. The branch that is taken is finite (nan_to_num changes nothing): its logarithms are of numbers other
    than 0, and its denominators are not 0. *)
Definition g (x alpha beta : R) : C :=
  let cond1 := if Rlt_dec (Rabs beta) 1 then true else false in
  let cond2 := isv beta 1 && (if Rle_dec alpha 0 then true else false) in
  let x_ := if isv x 0 && isv beta 0 then 1 / 100 else x in
  let ret :=
    if cond1 then
      Cplus (Cmult (clog (x_, - beta)) (clog (Cdiv (alpha - x_, 1) (alpha, 1 - beta))))
            (Li2 (Cdiv (x_, - beta) (alpha, 1 - beta)))
    else if cond2 then
      Cplus (Cmult (RtoC (1 / 2)) (Cmult (clog (x_ - alpha, -1)) (clog (x_ - alpha, -1))))
            (Li2 (Cdiv (- alpha, 0) (x_ - alpha, -1)))
    else
      Cminus (Cmult (clog (alpha, 1 - beta)) (clog (alpha - x_, 1)))
             (Li2 (Cdiv (alpha - x_, 1) (alpha, 1 - beta))) in
  if isv x 0 && isv beta 0 then RtoC 0 else ret.

(** G, 110-120 *)
Definition G (x alpha beta : R) : R :=
  let nonneg := if Rle_dec 0 x then true else false in
  let pre := if nonneg then 1 else -1 in
  let alpha := if nonneg then alpha else - alpha in
  let x := if nonneg then x else - x in
  let g1 := g x alpha beta in
  let g2 := g x alpha (- beta) in
  let g3 := Copp (g 0 alpha beta) in
  let g4 := Copp (g 0 alpha (- beta)) in
  pre * snd (Cplus (Cplus (Cplus g1 g2) g3) g4).

(** F, 104-107 *)
Definition F (x a b c d : R) : R :=
  G (x / b) (a / b) (c / b) + ln (b ^ 2 / d ^ 2) * (atan ((x - a) / b) + atan (a / b)).

(** np.where(cond & (xmax >= xmin), factor * (F(xmax) - F(xmin)), 0); strict for I3 and I4 *)
Definition masked (cond : bool) (strict : bool) (xmx xmn : X) (value : R -> R -> R) : X :=
  match xmx, xmn with
  | Fin hi, Fin lo =>
    if cond && (if strict then xltb (Fin lo) (Fin hi) else xleb (Fin lo) (Fin hi)) then Fin (value hi lo) else Fin 0
  | _, _ => Fin 0    (* a comparison with NaN is false *)
  end.

(** np.sqrt(q**2 - ((4 + 3q)/(3 + 4q))**2 chip**2) and np.sqrt(1 - chip**2) *)
Definition ratio (q : R) : R := (4 + 3 * q) / (3 + 4 * q).
Definition root_2 (chip q : R) : X := xsqrt (Fin (q ^ 2 - ratio q ^ 2 * chip ^ 2)).
Definition root_1 (chip : R) : X := xsqrt (Fin (1 - chip ^ 2)).
Definition gtb (x y : R) : bool := if Rlt_dec y x then true else false.
Definition geb (x y : R) : bool := if Rle_dec y x then true else false.

(** I1, 25-41 *)
Definition I1 (chieff chip q : R) : X :=
  let a := (1 + q) * chieff in
  let x1max := xmin (root_2 chip q) (xadd (Fin a) (root_1 chip)) in
  let x1min := xmax (xopp (root_2 chip q)) (xsub (Fin a) (root_1 chip)) in
  masked (gtb chip 0 && geb q ((4 + 3 * q) * chip / (3 + 4 * q))) false x1max x1min
    (fun hi lo => (1 + q) / (8 * q) * (F hi a chip (ratio q * chip) q - F lo a chip (ratio q * chip) q)).
(** I2, 44-55 *)
Definition I2 (chieff chip q : R) : X :=
  let a := (1 + q) * chieff in
  let x2max := xmin (Fin q) (xadd (Fin a) (root_1 chip)) in
  let x2min := xmax (Fin (- q)) (xsub (Fin a) (root_1 chip)) in
  masked (gtb chip 0 && gtb 1 chip) false x2max x2min
    (fun hi lo => - (1 + q) / (8 * q) * (F hi a chip 0 q - F lo a chip 0 q)).
(** I3, 58-78 *)
Definition I3 (chieff chip q : R) : X :=
  let a := (1 + q) * chieff in
  let x3max := xmin (root_1 chip) (xadd (Fin a) (root_2 chip q)) in
  let x3min := xmax (xopp (root_1 chip)) (xsub (Fin a) (root_2 chip q)) in
  masked (gtb chip 0 && geb q ((4 + 3 * q) * chip / (3 + 4 * q))) true x3max x3min
    (fun hi lo => (1 + q) / (8 * q) * (4 + 3 * q) / (3 + 4 * q)
                  * (F hi a (ratio q * chip) chip 1 - F lo a (ratio q * chip) chip 1)).
(** I4, 81-101 *)
Definition I4 (chieff chip q : R) : X :=
  let a := (1 + q) * chieff in
  let x4max := xmin (Fin 1) (xadd (Fin a) (root_2 chip q)) in
  let x4min := xmax (Fin (- 1)) (xsub (Fin a) (root_2 chip q)) in
  masked (gtb chip 0 && geb q ((4 + 3 * q) * chip / (3 + 4 * q))) true x4max x4min
    (fun hi lo => - (1 + q) / (8 * q) * (4 + 3 * q) / (3 + 4 * q)
                  * (F hi a (ratio q * chip) 0 1 - F lo a (ratio q * chip) 0 1)).
(** 248-256 *)
Definition prior_chieff_chip (chieff chip q amax : R) : X :=
  let chieff := chieff / amax in
  let chip := chip / amax in
  xdiv (xadd (xadd (xadd (I1 chieff chip q) (I2 chieff chip q)) (I3 chieff chip q)) (I4 chieff chip q))
       (Fin (amax ^ 2)).
End Prior.
