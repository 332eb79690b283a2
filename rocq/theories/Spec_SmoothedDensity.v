(** Vocabulary for the smoothed hybrid mass models. *)
From Coq Require Import Reals List.
From Verif Require Import Model_X Spec_X Spec_Density.
Import ListNotations.
Open Scope R_scope.

(** the Planck taper: 0 up to 0, 1 from 1 on, a smooth step in between *)
Definition planck (x : R) : R :=
  if Rle_dec x 0 then 0 else if Rlt_dec x 1 then / (1 + exp (1 / x + 1 / (x - 1))) else 1.

Section Smoothed.
Context {T : Type}.
(** components: log density of the primary mass, log density of the other coordinates *)
Variable components : list ((R -> X) * (T -> X)).
Variable lambdas : list R.
Definition mass_density (m : R) : R :=
  rsum (map (fun p => fst p * wexp (fst (snd p) m)) (combine lambdas components)).
Definition joint_density (m : R) (t : T) : R :=
  rsum (map (fun p => fst p * (wexp (fst (snd p) m) * wexp (snd (snd p) t))) (combine lambdas components)).

(** fractions form a distribution over the components, whose log densities are numbers or -inf;
    the support declared for the mixture has every point some component gives weight to *)
Definition mixture_ok (support : R -> T -> bool) : Prop :=
  List.Forall (fun p => 0 <= p) lambdas /\ rsum lambdas = 1 /\ length lambdas = length components
  /\ List.Forall (fun c => (forall m, fin_or_ninf (fst c m)) /\ (forall t, fin_or_ninf (snd c t))) components
  /\ (forall m t, List.Exists (fun c => fst c m <> NInf /\ snd c t <> NInf) components -> support m t = true).
(** the masses: positive limits and widths; some node above the minimum has weight *)
Definition masses_ok (delta_m1 delta_m2 m1max m1min m2min : R) : Prop :=
  0 < delta_m1 /\ 0 < delta_m2 /\ 0 < m1min < m1max /\ 0 < m2min
  /\ exists m, In m (nodes m1min m1max 1000) /\ m1min < m /\ 0 < mass_density m.
End Smoothed.

(** [f] is affine between consecutive nodes *)
Definition affine_between (xs : list R) (f : R -> R) : Prop :=
  forall l a b r x, xs = l ++ a :: b :: r -> a <= x <= b -> f x = f a + (x - a) / (b - a) * (f b - f a).

(** the total over a box of the other coordinates, the nodes of the ratio and those of the primary mass *)
Definition total_is (box : list (R * R)) (lp : R -> list R -> R -> X) (m1min m1max v : R) : Prop :=
  exists g : R -> R -> R,
    (forall m1 q, In m1 (nodes m1min m1max 1000) -> In q (nodes (5 / 1000) 1 500) ->
       iterated_integral box (fun t => wexp (lp m1 t q)) (g m1 q))
    /\ trapezoid_sum (fun m1 => trapezoid_sum (g m1) (nodes (5 / 1000) 1 500)) (nodes m1min m1max 1000) = v.
