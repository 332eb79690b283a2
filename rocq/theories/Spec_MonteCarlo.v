(** What the Monte-Carlo estimators should return, as plain sums over the real weights. *)
From Coq Require Import Reals List.
From Verif Require Import Model_X Spec_X Model_MonteCarlo.
Import ListNotations.
Open Scope R_scope.

(** weights of a sample: exponentials of the log weights, -inf meaning 0 *)
Definition weights_of (log_probs : list X) : list R := map wexp log_probs.

Definition mean (w : list R) : R := rsum w / INR (length w).

(** sum of squared deviations divided by n(n-1): the squared standard error of the mean *)
Definition sq_error (w : list R) : R :=
  rsum (map (fun x => (x - mean w) * (x - mean w)) w)
  / (INR (length w) * (INR (length w) - 1)).

(** logarithm of a non-negative real, log 0 = -inf *)
Definition log_of (r : R) : X := if Rlt_dec 0 r then Fin (ln r) else NInf.

(** importance weight of an injection: density / draw density; an undefined or zero ratio
    counts zero *)
Definition injection_weight (p : X * X) : X :=
  match xsub (fst p) (snd p) with Fin r => Fin (exp r) | PInf => PInf | _ => Fin 0 end.
Definition total_weight (l : list X) : X := fold_right xadd (Fin 0) l.

Section Loop.
Context {K : Type} (split : K -> K * K) (lw : K -> list X).

(** the keys of the first [n] batches: each step splits the key and draws with the second half *)
Fixpoint batch_keys (n : nat) (key : K) : list K :=
  match n with O => [] | S n' => snd (split key) :: batch_keys n' (fst (split key)) end.
(** all log weights of the first [n] batches *)
Definition pooled (n : nat) (key : K) : list X := concat (map lw (batch_keys n key)).
(** the running values after [n] batches, and the squared error among them *)
Definition values_after (n : nat) (key : K) : mc_values :=
  fold_left mc_step (map lw (batch_keys n key)) mc_start.
Definition error_after (n : nat) (key : K) : X := snd (fst (values_after n key)).
End Loop.

(** An adaptive estimator stops after [n] batches rightly: every earlier error was too large, and
    now either the error is small enough or the budget is used up. *)
Definition adaptive_stop (err : nat -> X) (thr : R) (budget n : nat) : Prop :=
  (1 <= n <= budget)%nat
  /\ (forall j, (1 <= j < n)%nat -> ~ xleb (err j) (Fin thr) = true)
  /\ (n = budget \/ xleb (err n) (Fin thr) = true).
