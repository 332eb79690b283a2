(** Property C113: the events of the Monk analysis. *)
From Coq Require Import String Ascii Reals Lra Lia List Bool Arith.
From Verif Require Import Model_X Spec_X Proofs_X Model_Guru Proofs_Guru Model_Population Proofs_Population Proofs_Injections.
From Verif Require Import Model_Likelihood Model_Sage Model_MonteCarlo Spec_MonteCarlo Proofs_MonteCarlo Props_MonteCarlo Model_Monk.
Import ListNotations.
Open Scope nat_scope.

(** a name of an HDF5 file; a group of an event *)
Definition hdf5_name (s : string) : Prop := exists stem, s = (stem ++ ".hdf5")%string \/ s = (stem ++ ".h5")%string.
Definition event_name (s : string) : Prop := exists rest, s = ("event_" ++ rest)%string.
(** mean and covariance of a group, of one dimension *)
Definition describes (g : group) (mean cov : array) : Prop :=
  dget g "mean" = Some mean /\ dget g "cov" = Some cov
  /\ exists d rest, shape mean = d :: rest /\ shape cov = [d; d].

Lemma shape_eqb_iff a b : shape_eqb a b = true <-> a = b.
Proof. unfold shape_eqb. destruct (list_eq_dec _ a b) as [e|e]; split; intros H; auto; try discriminate H; now destruct (e H). Qed.
Lemma read_event_iff g m c : read_event g = Some (m, c) <-> describes g m c.
Proof.
  unfold read_event, describes. split.
  - destruct (dget g "mean") as [m'|]; [|discriminate]. destruct (dget g "cov") as [c'|]; [|discriminate].
    destruct (shape m') as [|d r] eqn:E; [discriminate|]. destruct (shape_eqb (shape c') [d; d]) eqn:F; [|discriminate].
    intros [= -> ->]. apply shape_eqb_iff in F. eauto 10.
  - intros (-> & -> & d & r & -> & ->). now rewrite (proj2 (shape_eqb_iff [d; d] [d; d]) eq_refl).
Qed.

(** which files are accepted *)
Theorem C113_accepted : forall filename f, read_mean_covariances filename f <> None <->
  hdf5_name filename /\ forall name g, In (name, g) f -> event_name name -> exists mean cov, describes g mean cov.
Proof.
  intros filename f. unfold read_mean_covariances.
  assert (N : (ends_with filename ".hdf5" || ends_with filename ".h5") = true <-> hdf5_name filename).
  { rewrite orb_true_iff, !ends_with_spec. unfold hdf5_name. firstorder eauto. }
  destruct (ends_with filename ".hdf5" || ends_with filename ".h5").
  2:{ split; [congruence|]. intros [H _]. apply N in H. discriminate. }
  assert (H : hdf5_name filename) by now apply N.
  destruct (map_opt _ _) as [l|] eqn:E.
  - split; [intros _; split; [exact H|]|discriminate].
    intros name g Hin Hn. assert (F : In (name, g) (filter (fun p : string * group => String.prefix "event_" (fst p)) f)).
    { apply filter_In. split; [exact Hin|]. now apply prefix_spec. }
    destruct (map_opt_In' _ _ _ _ E F) as ([m c] & _ & R). cbn [snd] in R. exists m, c. now apply read_event_iff.
  - split; [congruence|]. intros [_ A]. exfalso.
    assert (T : exists r, map_opt (fun p : string * group => read_event (snd p)) (filter (fun p => String.prefix "event_" (fst p)) f) = Some r).
    { clear E. assert (B : forall p, In p (filter (fun p : string * group => String.prefix "event_" (fst p)) f) -> exists b, read_event (snd p) = Some b).
      { intros [name g] Hp. apply filter_In in Hp as [Hin Hn]. cbn [fst] in Hn. apply prefix_spec in Hn.
        destruct (A name g Hin Hn) as (m & c & D). exists (m, c). now apply read_event_iff. }
      induction (filter _ f) as [|p l IH]; cbn; [eauto|]. destruct (B p (or_introl eq_refl)) as [b ->].
      destruct IH as [r ->]; [intros; apply B; now right|eauto]. }
    destruct T as [r T]. rewrite E in T. discriminate.
Qed.
Print Assumptions C113_accepted.

(** means and covariances are those of the event groups, in the order of the file *)
Theorem C113_events : forall filename f means covs, read_mean_covariances filename f = Some (means, covs) ->
  exists events, Forall2 (fun e mc => event_name (fst e) /\ describes (snd e) (fst mc) (snd mc)) events (combine means covs)
    /\ events = filter (fun e => String.prefix "event_" (fst e)) f
    /\ length means = length events /\ length covs = length events.
Proof.
  intros filename f means covs. unfold read_mean_covariances. destruct (_ || _); [|discriminate].
  destruct (map_opt _ _) as [l|] eqn:E; [|discriminate]. intros [= <- <-].
  exists (filter (fun e => String.prefix "event_" (fst e)) f). split; [|split; [reflexivity|]].
  - assert (P : Forall (fun e : string * group => event_name (fst e)) (filter (fun e => String.prefix "event_" (fst e)) f)).
    { apply Forall_forall. intros e He. apply filter_In in He as [_ He]. now apply prefix_spec. }
    revert l E P. induction (filter _ f) as [|e l' IH]; cbn; intros l E P.
    + injection E as <-. constructor.
    + destruct (read_event (snd e)) as [[m c]|] eqn:R; [|discriminate]. destruct (map_opt _ l') as [r|] eqn:E'; [|discriminate].
      injection E as <-. inversion P; subst. cbn. constructor; [|now apply IH]. split; auto. now apply read_event_iff.
  - rewrite !map_length. now apply map_opt_length in E.
Qed.
Print Assumptions C113_events.

From Coquelicot Require Import Coquelicot.
From mathcomp Require Import ssreflect ssrfun ssrbool eqtype ssrnat seq fintype bigop ssralg matrix.
From Verif Require Import Spec_X Model_RealRing Model_MVN Spec_MVN Proofs_MVN Props_MVN.
Import GRing.Theory.
Delimit Scope R_scope with re.
Local Open Scope ring_scope.

Section Posterior.
Context {n : nat}.
Notation vec := 'cV[R]_n.
Notation mat := 'M[R]_n.
Variables (cholesky : mat -> mat) (log_prob : list X -> vec -> X) (grad : list X -> vec -> vec) (hess : list X -> vec -> mat)
  (psd : mat -> bool) (chol_inv : mat -> mat) (K : Type) (split : K -> K * K) (split_n : K -> nat -> list K)
  (normal : K -> list vec).

(** [v] holds the entries of the file in their order; [M] holds them row after row *)
Definition column_of (a : array) (v : vec) : Prop := forall i, v i ord0 = List.nth i (entries a) R0.
Definition rows_of (a : array) (M : mat) : Prop := forall i j : 'I_n, M i j = List.nth (Nat.add (Nat.mul i n) j) (entries a) R0.
Lemma column_unique a v : column_of a v <-> v = as_vec a.
Proof.
  split=> [h|->]; last by move=> i; rewrite mxE.
  apply/matrixP => i j. rewrite mxE -h. congr (v i _). apply: val_inj. by case: j => [[|j] hj].
Qed.
Lemma rows_unique a M : rows_of a M <-> M = as_mat a.
Proof. split=> [h|->]; last by move=> i j; rewrite mxE. apply/matrixP => i j. by rewrite mxE -h. Qed.

Lemma data_maps : forall filename f means covs data, read_mean_covariances filename f = Some (means, covs) ->
  monk_data cholesky filename f = Some data ->
  data.1 = List.map as_vec means /\ data.2 = List.map (fun c => cholesky (as_mat c)) covs.
Proof.
  move=> filename f means covs data h. rewrite /monk_data h.
  case E: (stack means) => [m|] //. case F: (stack covs) => [c|] //. move=> [<-] /=.
  have S l r : stack l = Some r -> r = l.
  { case: l => [|a t] //=. case: forallb => //. by move=> [<-]. }
  rewrite (S _ _ E) (S _ _ F) List.map_map. by [].
Qed.
(** the data keeps mean and covariance of an event together *)
Theorem C113_data : forall filename f means covs data, read_mean_covariances filename f = Some (means, covs) ->
  monk_data cholesky filename f = Some data ->
  List.Forall2 column_of means data.1 /\ List.Forall2 (fun a L => exists2 M, rows_of a M & L = cholesky M) covs data.2.
Proof.
  move=> filename f means covs data h h'. have [-> ->] := data_maps _ _ _ _ _ h h'. split.
  - elim: means {h} => [|a l IH] /=; constructor=> //. by apply/column_unique.
  - elim: covs {h} => [|a l IH] /=; constructor=> //. exists (as_mat a) => //. by apply/rows_unique.
Qed.


(** every weight of the i-th event compares its own mean and covariance with the fit it was drawn from *)
Theorem C113_weights : forall filename f means covs data i mean cov x (m : vec) (c : mat),
  read_mean_covariances filename f = Some (means, covs) -> monk_data cholesky filename f = Some data ->
  List.nth_error means i = Some mean -> List.nth_error covs i = Some cov ->
  column_of mean m -> rows_of cov c -> let L := cholesky c in
  cholesky_factor L -> L *m L^T = c ->
  let mu := fit_mean (hess x) (grad x) psd m L in let F := fit_scale_tril (hess x) psd chol_inv m L in
  cholesky_factor F -> (forall y, fin_or_ninf (log_prob x y)) ->
  forall k, List.Forall2 (fun e w => let y := mu + F *m e in
      Rmult (wexp w) (normal_density mu (F *m F^T) y) = Rmult (wexp (log_prob x y)) (normal_density m c y))
    (normal k) (monk_weights log_prob grad hess psd chol_inv K normal data x i k).
Proof.
  move=> filename f means covs data i mean cov x m c h1 h2 h3 h4 /column_unique hm /rows_unique hr L hL hc mu F hF hp k.
  have [d1 d2] := data_maps _ _ _ _ _ h1 h2. rewrite /monk_weights d1 d2.
  have -> : List.nth i (List.map as_vec means) 0 = m.
  { apply: List.nth_error_nth. by rewrite List.nth_error_map h3 hm. }
  have -> : List.nth i (List.map (fun c => cholesky (as_mat c)) covs) 0 = L.
  { apply: List.nth_error_nth. by rewrite List.nth_error_map h4 /L hr. }
  rewrite /event_log_weights /fit_samples. elim: (normal k) => [|e l IH] /=; constructor=> //.
  have [_ [_ E]] := C111_importance_weights (hess x) (grad x) psd chol_inv (log_prob x) m L (mu + F *m e) hL hF (hp (mu + F *m e)).
  by rewrite -hc -E.
Qed.

(** the log posterior of the analysis: prior, n log T, sum over the events of the log mean weight,
    minus the expected rate *)
Theorem C113_posterior : forall err T nmax prior rate key filename f data x,
  monk_data cholesky filename f = Some data -> (1 <= nmax)%coq_nat ->
  (forall k m, List.length (split_n k m) = m) ->
  (forall y, fin_or_ninf (log_prob x y)) -> (forall k, (2 <= List.length (normal k))%coq_nat) ->
  let N := List.length data.1 in
  exists counts, List.length counts = N /\ List.Forall (fun c => (1 <= c)%coq_nat /\ (c <= nmax)%coq_nat) counts
  /\ monk_log_posterior cholesky log_prob grad hess psd chol_inv K split split_n normal err T nmax prior rate key filename f x
     = Some (nan_to_neginf (xadd (prior x) (xsub (xadd (xmul (Fin (INR N)) (xln (Fin T)))
         (xsum (List.map (fun p => log_of (mean (weights_of
              (pooled split (monk_weights log_prob grad hess psd chol_inv K normal data x p.1.1) p.2 p.1.2))))
           (List.combine (List.combine (List.seq 0 N) (split_n key N)) counts)))) (rate x)))).
Proof.
  move=> err T nmax prior rate key filename f data x hd hn hs hp hk N.
  have W : forall i k, List.Forall fin_or_ninf (monk_weights log_prob grad hess psd chol_inv K normal data x i k)
     /\ (1 < List.length (monk_weights log_prob grad hess psd chol_inv K normal data x i k))%coq_nat.
  { move=> i k. rewrite /monk_weights /event_log_weights /fit_samples. split.
    - apply/List.Forall_forall => y /List.in_map_iff [z [<- _]]. rewrite /log_weight.
      case: (log_prob x z) (hp z) => [r| | |] //=.
    - rewrite !List.map_length. exact: hk. }
  have [counts [c1 [c2 c3]]] := C03_analytical_likelihood_value K split err nmax T prior rate
    (monk_weights log_prob grad hess psd chol_inv K normal data) (split_n key N) x hn W.
  exists counts. rewrite c1 hs. split=> //. split=> //. by rewrite /monk_log_posterior hd -/N c3 hs.
Qed.
End Posterior.
Print Assumptions C113_data.
Print Assumptions C113_weights.
Print Assumptions C113_posterior.

(** a file with two events of unit covariance and one more group, and a standard normal population *)
Definition unit_cov : array := mkarray (2%N :: 2%N :: nil) (1%re :: 0%re :: 0%re :: 1%re :: nil).
Definition ex_file : list (string * group) :=
  ("event_0"%string, ("mean"%string, mkarray (2%N :: nil) (1%re :: 2%re :: nil)) :: ("cov"%string, unit_cov) :: nil)
  :: ("event_1"%string, ("cov"%string, unit_cov) :: ("mean"%string, mkarray (2%N :: nil) (3%re :: 5%re :: nil)) :: nil)
  :: ("notes"%string, nil) :: nil.
Lemma unit_cov_mat : as_mat unit_cov = (1%:M : 'M[R]_2).
Proof.
  apply/matrixP => i j. rewrite !mxE.
  case: i => [[|[|i]] hi] //; case: j => [[|[|j]] hj] //=.
Qed.
Example C113_nonvacuous : exists data mean, @monk_data 2 (fun c => c) "x.hdf5"%string ex_file = Some data
  /\ List.length data.1 = 2%N /\ List.nth_error data.1 1 = Some mean /\ mean ord0 ord0 = 3%re
  /\ let L : 'M[R]_2 := as_mat unit_cov in cholesky_factor L /\ L *m L^T = as_mat unit_cov
  /\ cholesky_factor (fit_scale_tril (@ex_hess 2) (fun _ => true) (@ex_chol 2) mean L)
  /\ forall y, fin_or_ninf (Fin (@ex_f 2 y)).
Proof.
  eexists. exists (as_vec (mkarray (2%N :: nil) (3%re :: 5%re :: nil))). split; first reflexivity.
  split=> //. split=> //. split; first by rewrite mxE.
  rewrite unit_cov_mat. have [h1 [h2 h3]] := C111_nonvacuous 2 (as_vec (mkarray (2%N :: nil) (3%re :: 5%re :: nil))) 0.
  split; first exact: h1. split; first by rewrite trmx1 mulmx1. by [].
Qed.
