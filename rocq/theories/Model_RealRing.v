(** The real numbers as a commutative ring of mathcomp, so that its matrices and determinants can be
    used.  Nothing here models code. *)
From Coq Require Import Reals Lra ClassicalEpsilon.
From mathcomp Require Import ssreflect ssrfun ssrbool eqtype choice ssrnat ssralg.

Definition eqr (a b : R) : bool := if Req_EM_T a b then true else false.
Lemma eqrP : Equality.axiom eqr.
Proof. move=> a b; rewrite /eqr; case: Req_EM_T => h; by constructor. Qed.
Canonical R_eqMixin := EqMixin eqrP.
Canonical R_eqType := Eval hnf in EqType R R_eqMixin.

Definition pickR (P : pred R) (n : nat) : option R :=
  let x := epsilon (inhabits R0) (fun x => P x = true) in if P x then Some x else None.
Lemma pickR_some P n x : pickR P n = Some x -> P x.
Proof. rewrite /pickR; case E: (P _) => //; by case=> <-. Qed.
Lemma pickR_ex (P : pred R) : (exists x, P x) -> exists n, pickR P n.
Proof.
  move=> [x Hx]; exists 0%N; rewrite /pickR.
  have -> : P (epsilon (inhabits R0) (fun x => P x = true)) = true by apply: (epsilon_spec (inhabits R0) (fun x => P x = true)); exists x.
  by [].
Qed.
Lemma pickR_ext (P Q : pred R) : P =1 Q -> pickR P =1 pickR Q.
Proof.
  move=> E n; rewrite /pickR.
  have -> : (fun x => P x = true) = (fun x => Q x = true)
    by apply: FunctionalExtensionality.functional_extensionality => x; rewrite E.
  by rewrite E.
Qed.
Definition R_choiceMixin := Choice.Mixin pickR_some pickR_ex pickR_ext.
Canonical R_choiceType := Eval hnf in ChoiceType R R_choiceMixin.

Lemma RplusA : associative Rplus. Proof. by move=> *; rewrite Rplus_assoc. Qed.
Definition R_zmodMixin := ZmodMixin RplusA Rplus_comm Rplus_0_l Rplus_opp_l.
Canonical R_zmodType := Eval hnf in ZmodType R R_zmodMixin.
Lemma RmultA : associative Rmult. Proof. by move=> *; rewrite Rmult_assoc. Qed.
Lemma R1_neq_0 : R1 != R0. Proof. apply/eqrP; lra. Qed.
Definition R_ringMixin := RingMixin RmultA Rmult_1_l Rmult_1_r Rmult_plus_distr_r Rmult_plus_distr_l R1_neq_0.
Canonical R_ringType := Eval hnf in RingType R R_ringMixin.
Canonical R_comRingType := Eval hnf in ComRingType R Rmult_comm.

Definition Rinvx (r : R) : R := if r == R0 then r else Rinv r.
Definition unit_R (r : R) : bool := r != R0.
Lemma RmultRinvx : {in unit_R, left_inverse R1 Rinvx Rmult}.
Proof.
  move=> r; rewrite /unit_R /Rinvx => h. have h' : r != R0 by []. rewrite (negbTE h').
  apply: Rinv_l. by apply/eqrP.
Qed.
Lemma RinvxRmult : {in unit_R, right_inverse R1 Rinvx Rmult}.
Proof. move=> r h. by rewrite Rmult_comm RmultRinvx. Qed.
Lemma intro_unit_R x y : Rmult y x = R1 /\ Rmult x y = R1 -> unit_R x.
Proof. move=> [_ h]; apply/eqrP => e; rewrite e in h; lra. Qed.
Lemma Rinvx_out : {in predC unit_R, Rinvx =1 id}.
Proof. move=> r; rewrite inE /= /unit_R negbK /Rinvx => h. by rewrite h. Qed.
Definition R_unitRingMixin := UnitRingMixin RmultRinvx RinvxRmult intro_unit_R Rinvx_out.
Canonical R_unitRingType := Eval hnf in UnitRingType R R_unitRingMixin.
Canonical R_comUnitRingType := Eval hnf in [comUnitRingType of R].
