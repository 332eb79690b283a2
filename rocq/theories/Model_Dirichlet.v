(** Model of gwkanal/utils/priors.py:19-130 (DirichletElement), the conditional priors used for mixing
    fractions.  Parameters and values are finite numbers. *)
From Coq Require Import Reals ZArith List Bool.
From Verif Require Import Model_X Model_Powerlaw.
Import ListNotations.
Open Scope R_scope.

(** jax.scipy.special.xlog1py(a, b) = a * log1p(b), and 0 where a = 0 *)
Definition xlog1py (a b : R) : X := if Req_EM_T a 0 then Fin 0 else xmul (Fin a) (xln (Fin (1 + b))).

(** _DirichletElement(order, n_dimensions, sum_of_concentrations), and numpyro's Delta(v, log_density = 0) *)
Inductive element := Point (v : R) | Elem (order n_dimensions sum_of_concentrations : R).

(** log_prob, 47-52; Delta.log_prob compares with the point *)
Definition element_log_prob (e : element) (value : R) : X :=
  match e with
  | Point v => if Req_EM_T value v then Fin 0 else NInf
  | Elem order n s =>
    let constant := n - order - 1 in
    let log_prob_unnorm := xlog1py (constant - 1) (- s - value) in
    let log_norm := xsub (xlog1py constant (- s)) (xln (Fin constant)) in
    xsub log_prob_unnorm log_norm
  end.

(** sample, 54-57, as a function of the uniform draw [u]; Delta.sample returns the point.  The
    constant is not zero for any element the constructor returns. *)
Definition element_sample (e : element) (u : R) : X :=
  match e with
  | Point v => Fin v
  | Elem order n s =>
    let inv_constant := 1 / (n - order - 1) in
    xmul (Fin (1 - s)) (xsub (Fin 1) (xpower u inv_constant))
  end.

(** the list comprehension of line 111: [kwargs i] is the keyword argument "concentration<i>" *)
Fixpoint collect (kwargs : nat -> option R) (i k : nat) : option (list R) :=
  match k with
  | O => Some []
  | S k' => match kwargs i, collect kwargs (S i) k' with Some c, Some cs => Some (c :: cs) | _, _ => None end
  end.

(** DirichletElement, 60-130; None is an exception *)
Definition dirichlet_element (order n_dimensions : Z) (kwargs : nat -> option R) : option element :=
  if (order <? 0)%Z then None
  else if (n_dimensions <? 2)%Z then None
  else match collect kwargs 0 (Z.to_nat order) with
       | None => None
       | Some concentrations =>
         let sum_of_concentrations := fold_left Rplus concentrations 0 in
         let high := 1 - sum_of_concentrations in
         if (order =? n_dimensions - 1)%Z then Some (Point high)
         else Some (Elem (IZR order) (IZR n_dimensions) sum_of_concentrations)
       end.

(** the priors used one after the other: element k is given the values of elements 0 .. k-1 *)
Fixpoint draw_all (n : Z) (prev us : list R) : option (list R) :=
  match us with
  | [] => Some prev
  | u :: us' =>
    match dirichlet_element (Z.of_nat (length prev)) n (nth_error prev) with
    | None => None
    | Some e => match element_sample e u with Fin x => draw_all n (prev ++ [x]) us' | _ => None end
    end
  end.
Fixpoint joint_log_prob (n : Z) (prev xs : list R) : option X :=
  match xs with
  | [] => Some (Fin 0)
  | x :: xs' =>
    match dirichlet_element (Z.of_nat (length prev)) n (nth_error prev), joint_log_prob n (prev ++ [x]) xs' with
    | Some e, Some rest => Some (xadd (element_log_prob e x) rest)
    | _, _ => None
    end
  end.
