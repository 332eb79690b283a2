(** What the likelihood of an inhomogeneous Poisson process is, for a catalogue given as a plain
    list of events: each event is the list of its posterior samples paired with their log
    reference priors. *)
From Coq Require Import Reals List Bool String.
From Verif Require Import Model_X Spec_X Spec_Jenks Model_Likelihood.
Import ListNotations.
Open Scope R_scope.

Section Spec.
Variable D : Type.
Definition event := list (D * X).
Definition catalogue := list event.

(** log of the sum over the event's own samples of density / reference prior *)
Definition event_term (lp : D -> X) (e : event) : X :=
  xln (xsum (map (fun p => xexp (xsub (lp (fst p)) (snd p))) e)).

(** const + sum over events - mu *)
Definition log_likelihood_spec (const : X) (lp : D -> X) (mu : X) (c : catalogue) : X :=
  xsub (xadd const (xsum (map (event_term lp) c))) mu.

(** [bs] stores [c]: the arrays of each bucket have equal shapes and, reading only unmasked
    entries bucket by bucket, one finds the events of [c] in order.  Nothing is said about the
    masked entries. *)
Definition shape_eq {A B} (a : list (list A)) (b : list (list B)) : Prop :=
  Forall2 (fun r s => List.length r = List.length s) a b.
Definition well_shaped (b : bucket D) : Prop :=
  rectangular (b_data b) /\ shape_eq (b_data b) (b_mask b) /\ shape_eq (b_ref b) (b_mask b).
Definition events_of_bucket (b : bucket D) : list event :=
  map (fun p => unpad (fst p) (combine (fst (snd p)) (snd (snd p))))
      (combine (b_mask b) (combine (b_data b) (b_ref b))).
Definition stores (bs : list (bucket D)) (c : catalogue) : Prop :=
  Forall well_shaped bs /\ flat_map events_of_bucket bs = c.

(** [feasible_like] returns an array of the shape of its argument *)
Definition feasible_shape (m : model D) := forall l, List.length (m_feasible m l) = List.length l.

(** importance weights density/prior of an event, as real numbers *)
Definition event_weights (lp : D -> X) (e : list (D * X)) : list R :=
  map (fun p => wexp (xsub (lp (fst p)) (snd p))) e.

(** variance of one event's normalised Monte-Carlo integral *)
Definition var_spec (lp : D -> X) (e : list (D * X)) : R :=
  let w := event_weights lp e in
  rsum (map (fun x => x * x) w) / (rsum w * rsum w) - 1 / INR (List.length e).

(** no infinite weight and at least one positive weight *)
Definition good_event (lp : D -> X) (e : list (D * X)) : Prop :=
  (forall p, In p e -> xsub (lp (fst p)) (snd p) <> PInf) /\ 0 < rsum (event_weights lp e).

End Spec.
Arguments event_term {D}.
Arguments log_likelihood_spec {D}.
Arguments well_shaped {D}.
Arguments events_of_bucket {D}.
Arguments stores {D}.
Arguments event_weights {D}.
Arguments var_spec {D}.
Arguments good_event {D}.
Arguments feasible_shape {D}.
(** the catalogue: events paired sample by sample with their log reference priors *)
Definition catalogue_of {D} (events : list (list D)) (refs : list (list X)) : list (list (D * X)) :=
  map (fun p => combine (fst p) (snd p)) (combine events refs).

(** the variance cut keeps a sample: its variance is a number below the threshold.  A variance
    of -inf counts as the most negative float -[big]; NaN and +inf never pass. *)
Definition keeps (big : R) (v : X) (thr : R) : bool :=
  match v with
  | Fin x => if Rlt_dec x thr then true else false
  | NInf => if Rlt_dec (- big) thr then true else false
  | _ => false
  end.
