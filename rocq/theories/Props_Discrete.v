(** Properties C55, C77, C78: the loader of posterior samples. *)
From Coq Require Import String.
From Coq Require Import Reals List Bool Arith ZArith Lra Lia.
From Verif Require Import Model_X Spec_X Model_Mass Model_Transform Proofs_Transform Model_Injections Spec_Injections Proofs_Injections Model_Discrete Spec_Discrete Proofs_Discrete.
Import ListNotations.
Open Scope R_scope.

(** ** C55 *)
(** The log prior of a sample is the log of the Jacobian from the requested mass coordinates to those in
    which the declared prior is flat. *)
Theorem C55_mass_prior : forall self mp c z u v r ps,
  mass_prior self = Some mp -> handled mp c -> 0 < 1 + z -> 0 < u -> 0 < v -> asks_for ps c -> In "redshift"%string ps ->
  row_has self r c z u v ->
  exists J, jacobian (flat_1 mp c z) (flat_2 mp c z) u v J /\ 0 < J /\ mass_log_prior self ps r = Some (Fin (ln J)).
Proof.
  intros self mp c z u v r ps Hm Hh Hz Hu Hv Ha Hr Hrow.
  destruct (flat_correct mp c z u v Hz Hu Hv) as [HJ PJ]. eexists. split; [exact HJ|]. split; [exact PJ|].
  rewrite (mass_log_prior_spec self mp c z u v r ps) by auto. do 2 f_equal. fold (true_log mp c z u v).
  rewrite true_log_value by auto. unfold added. pose proof (source_mass_1_pos c z u v Hz Hu Hv) as P1.
  destruct c; destruct mp; cbn [handled] in Hh; try contradiction; cbn [source_mass_1]; try ring;
    unfold Rdiv; rewrite ln_mult, ln_Rinv by (auto; now apply Rinv_0_lt_compat); ring.
Qed.
Print Assumptions C55_mass_prior.
(** For the other combinations (a prior flat in source-frame masses with detector-frame coordinates, and
    chirp-mass coordinates) the difference from that log depends on the sample. *)
Theorem C55_other_coordinates_refuted : forall mp c, ~ handled mp c -> forall k, exists z u v, 0 < 1 + z /\ 0 < u /\ 0 < v /\
  forall self r ps, mass_prior self = Some mp -> asks_for ps c -> In "redshift"%string ps -> row_has self r c z u v ->
  exists J lp, jacobian (flat_1 mp c z) (flat_2 mp c z) u v J /\ 0 < J /\ mass_log_prior self ps r = Some (Fin lp) /\ lp <> ln J + k.
Proof.
  intros mp c Hh k.
  assert (D : forall z1 u1 v1 z2 u2 v2, 0 < 1 + z1 -> 0 < u1 -> 0 < v1 -> 0 < 1 + z2 -> 0 < u2 -> 0 < v2 ->
    added mp c z1 u1 v1 - true_log mp c z1 u1 v1 <> added mp c z2 u2 v2 - true_log mp c z2 u2 v2 ->
    exists z u v, 0 < 1 + z /\ 0 < u /\ 0 < v /\
      forall self r ps, mass_prior self = Some mp -> asks_for ps c -> In "redshift"%string ps -> row_has self r c z u v ->
      exists J lp, jacobian (flat_1 mp c z) (flat_2 mp c z) u v J /\ 0 < J /\ mass_log_prior self ps r = Some (Fin lp) /\ lp <> ln J + k).
  { assert (One : forall z u v, 0 < 1 + z -> 0 < u -> 0 < v -> added mp c z u v - true_log mp c z u v <> k ->
      forall self r ps, mass_prior self = Some mp -> asks_for ps c -> In "redshift"%string ps -> row_has self r c z u v ->
      exists J lp, jacobian (flat_1 mp c z) (flat_2 mp c z) u v J /\ 0 < J /\ mass_log_prior self ps r = Some (Fin lp) /\ lp <> ln J + k).
    { intros z u v Hz Hu Hv N self r ps Hm Ha Hr Hrow. destruct (flat_correct mp c z u v Hz Hu Hv) as [HJ PJ].
      eexists _, _. split; [exact HJ|]. split; [exact PJ|]. split; [apply (mass_log_prior_spec self mp c z u v r ps); assumption|].
      fold (true_log mp c z u v). lra. }
    intros z1 u1 v1 z2 u2 v2 A1 A2 A3 B1 B2 B3 N.
    destruct (Req_dec (added mp c z1 u1 v1 - true_log mp c z1 u1 v1) k) as [E|E].
    - exists z2, u2, v2. do 3 (split; [assumption|]). apply One; auto. lra.
    - exists z1, u1, v1. do 3 (split; [assumption|]). apply One; auto. }
  pose proof (ln_lt_2) as L2. assert (L2' : ln 1 < ln 2) by (apply ln_increasing; lra). rewrite ln_1 in L2'.
  assert (L16 : ln 3 < 4 * ln 2).
  { replace (4 * ln 2) with (ln 16); [apply ln_increasing; lra|]. replace 16 with (2 * 2 * (2 * 2)) by ring. rewrite !ln_mult by lra. ring. }
  assert (P1 : ln (primary_over_chirp 1) = 1/5 * ln 2).
  { rewrite primary_over_chirp_exp by lra. rewrite ln_exp, ln_1. replace (1 + 1) with 2 by ring. ring. }
  assert (P2 : ln (primary_over_chirp 2) = 1/5 * ln 3 - 3/5 * ln 2).
  { rewrite primary_over_chirp_exp by lra. rewrite ln_exp. replace (1 + 2) with 3 by ring. ring. }
  assert (PP1 : 0 < primary_over_chirp 1) by (apply primary_over_chirp_pos; lra).
  assert (PP2 : 0 < primary_over_chirp 2) by (apply primary_over_chirp_pos; lra).
  destruct c, mp; cbn [handled] in Hh; try (exfalso; now apply Hh).
  - (* detected masses, flat source *) apply (D 0 1 1 1 1 1); try lra. rewrite !true_log_value by lra. unfold added. replace (1 + 0) with 1 by ring. replace (1 + 1) with 2 by ring. rewrite ln_1. lra.
  - apply (D 0 1 1 1 1 1); try lra. rewrite !true_log_value by lra. unfold added. replace (1 + 0) with 1 by ring. replace (1 + 1) with 2 by ring. rewrite ln_1. lra.
  - apply (D 0 1 1 0 2 1); try lra. rewrite !true_log_value by lra. unfold added. cbn [source_mass_1 source_mass_2].
    replace (1 * primary_over_chirp 1 * 1 / (1 * primary_over_chirp 1)) with 1 by (field; lra).
    replace (2 * primary_over_chirp 1 * 1 / (2 * primary_over_chirp 1)) with 1 by (field; lra). rewrite ln_1. lra.
  - apply (D 0 1 1 1 1 1); try lra. rewrite !true_log_value by lra. unfold added. cbn [source_mass_1 source_mass_2].
    replace (1 * primary_over_chirp 1 * 1 / (1 * primary_over_chirp 1)) with 1 by (field; lra). replace (1 + 0) with 1 by ring. replace (1 + 1) with 2 by ring. rewrite Rmult_1_l, P1, ln_1. lra.
  - apply (D 0 1 1 0 2 1); try lra. rewrite !true_log_value by lra. unfold added. cbn [source_mass_1 source_mass_2].
    replace (1 * primary_over_chirp 1 * 1 / (1 * primary_over_chirp 1)) with 1 by (field; lra).
    replace (2 * primary_over_chirp 1 * 1 / (2 * primary_over_chirp 1)) with 1 by (field; lra). rewrite ln_1. lra.
  - apply (D 0 1 1 0 2 1); try lra. rewrite !true_log_value by lra. unfold added. cbn [source_mass_1 source_mass_2]. replace (1 + 0) with 1 by ring.
    replace (1 * primary_over_chirp 1 / 1 * 1 / (1 * primary_over_chirp 1 / 1)) with 1 by (field; lra).
    replace (2 * primary_over_chirp 1 / 1 * 1 / (2 * primary_over_chirp 1 / 1)) with 1 by (field; lra). rewrite ln_1. lra.
  - apply (D 0 1 1 0 1 2); try lra. rewrite !true_log_value by lra. unfold added. cbn [source_mass_1 source_mass_2]. replace (1 + 0) with 1 by ring.
    replace (1 * primary_over_chirp 1 / 1 * 1 / (1 * primary_over_chirp 1 / 1)) with 1 by (field; lra).
    replace (1 * primary_over_chirp 2 / 1 * 2 / (1 * primary_over_chirp 2 / 1)) with 2 by (field; lra).
    replace (1 * primary_over_chirp 1 / 1) with (primary_over_chirp 1) by field. replace (1 * primary_over_chirp 2 / 1) with (primary_over_chirp 2) by field.
    rewrite P1, P2, ln_1. lra.
  - apply (D 0 1 1 0 2 1); try lra. rewrite !true_log_value by lra. unfold added. cbn [source_mass_1 source_mass_2]. replace (1 + 0) with 1 by ring.
    replace (1 * primary_over_chirp 1 / 1 * 1 / (1 * primary_over_chirp 1 / 1)) with 1 by (field; lra).
    replace (2 * primary_over_chirp 1 / 1 * 1 / (2 * primary_over_chirp 1 / 1)) with 1 by (field; lra). rewrite ln_1. lra.
Qed.
Print Assumptions C55_other_coordinates_refuted.
(** Without the redshift among the parameters the reweighting is refused. *)
Theorem C55_needs_redshift : forall self mp ps r, mass_prior self = Some mp -> ~ In "redshift"%string ps -> mass_log_prior self ps r = None.
Proof.
  intros self mp ps r Hm H. unfold mass_log_prior. rewrite Hm. destruct (get_q self r); [|reflexivity]. cbn [bind].
  destruct (wants "redshift" ps) eqn:E; [|reflexivity]. apply wants_In in E. contradiction.
Qed.
Print Assumptions C55_needs_redshift.
Example C55_nonvacuous :
  let self := {| parameter_aliases := [("mass_1_source", "m1"); ("redshift", "z")]%string; max_samples := None; mass_prior := Some FlatDetectorComponents; component_spin := false; distance_prior := None |} in
  mass_log_prior self ["mass_1_source"; "mass_ratio"; "redshift"]%string [("m1", Fin 30); ("mass_ratio", Fin (1/2)); ("z", Fin 1)]%string = Some (Fin (ln 120)).
Proof.
  intros self.
  rewrite (mass_log_prior_spec self FlatDetectorComponents SourceRatio 1 30 (1/2)); try reflexivity; try lra.
  - unfold added. replace (1 + 1) with 2 by ring. do 2 f_equal. replace 120 with (2 * 2 * 30) by ring. rewrite !ln_mult by lra. ring.
  - intros k Hk. cbn in Hk. cbn. intuition (subst; try discriminate; auto).
  - cbn. auto.
  - unfold row_has. cbn. repeat split; try discriminate; intros; try (injection H as <-); try (f_equal; field).
Qed.

(** ** C77 *)
Section Load.
Variable self : loader.
Variable positions : Z -> nat -> nat -> list nat.
Variables logdVcdz z_to_DL dDLdz : X -> X.
Variable chieff_prior : X -> X -> X.
Variable chieff_chip_prior : X -> X -> X -> X.
Variable ps : list string.
Notation load_event := (load_event self positions logdVcdz z_to_DL dDLdz chieff_prior chieff_chip_prior ps).
Notation load_from := (load_from self positions logdVcdz z_to_DL dDLdz chieff_prior chieff_chip_prior ps).
Notation load := (load self positions logdVcdz z_to_DL dDLdz chieff_prior chieff_chip_prior ps).
Notation log_prior := (log_prior self logdVcdz z_to_DL dDLdz chieff_prior chieff_chip_prior ps).
Lemma sequence_spec {A} (l : list (option A)) t : sequence l = Some t <-> l = map Some t.
Proof.
  revert t. induction l as [|x l IH]; intros t; cbn [sequence].
  - split; [intros [= <-]; reflexivity|]. destruct t; [reflexivity|discriminate].
  - destruct x as [a|]; cbn [bind].
    + destruct (sequence l) as [t'|] eqn:E; cbn [bind].
      * split; [intros [= <-]; cbn; f_equal; now apply IH|]. destruct t as [|b t]; [discriminate|]. cbn. intros [= -> H].
        f_equal. f_equal. apply IH in H. congruence.
      * split; [discriminate|]. destruct t as [|b t]; [discriminate|]. cbn. intros [= -> H]. apply IH in H. discriminate.
    + split; [discriminate|]. destruct t; discriminate.
Qed.
Lemma load_from_spec files i seed data lps : load_from i files seed = Some (data, lps) ->
  length data = length files /\ length lps = length files
  /\ forall j f, nth_error files j = Some f -> exists d l, nth_error data j = Some d /\ nth_error lps j = Some l
     /\ load_event f (seed + Z.of_nat (i + j)) = Some (d, l).
Proof.
  revert i data lps. induction files as [|f files IH]; intros i data lps; cbn [Model_Discrete.load_from].
  - intros [= <- <-]. split; [reflexivity|]. split; [reflexivity|]. intros [|j] f; discriminate.
  - destruct (load_event f (seed + Z.of_nat i)) as [[d l]|] eqn:E; [|discriminate]. cbn [bind].
    destruct (load_from (S i) files seed) as [[ds ls]|] eqn:E2; [|discriminate]. cbn [bind fst snd]. intros [= <- <-].
    destruct (IH _ _ _ E2) as [L1 [L2 H]]. split; [cbn; lia|]. split; [cbn; lia|].
    intros [|j] f' Hj; cbn [nth_error] in *.
    + injection Hj as <-. exists d, l. rewrite Nat.add_0_r. auto.
    + destruct (H j f' Hj) as [d' [l' [A [B C]]]]. exists d', l'. split; auto. split; auto. now replace (i + S j)%nat with (S i + j)%nat by lia.
Qed.
(** One array of samples and one array of log priors per file, in the order of the files.  The k-th sample
    and the k-th log prior of an event come from the same row of its file; the rows are all of them, in
    order, or those drawn with the seed of the event, seed + i. *)
Theorem C77_rows : forall files seed data lps, load files seed = Some (data, lps) ->
  length data = length files /\ length lps = length files
  /\ forall i f, nth_error files i = Some f -> exists d l picked, nth_error data i = Some d /\ nth_error lps i = Some l
     /\ length d = length picked /\ length l = length picked
     /\ picked = match max_samples self with
                 | Some n => if (n <? length (rows f))%nat then positions (seed + Z.of_nat i)%Z n (length (rows f)) else seq 0 (length (rows f))
                 | None => seq 0 (length (rows f))
                 end
     /\ forall k j, nth_error picked k = Some j ->
          exists dk lk, nth_error d k = Some dk /\ nth_error l k = Some lk
            /\ map (fun p => dget (nth j (rows f) []) (alias self p)) ps = map Some dk
            /\ log_prior (nth j (rows f) []) = Some lk.
Proof.
  intros files seed data lps H. destruct (load_from_spec files 0 seed data lps H) as [L1 [L2 K]]. split; auto. split; auto.
  intros i f Hf. destruct (K i f Hf) as [d [l [Hd [Hl HE]]]]. cbn [Nat.add] in HE.
  unfold Model_Discrete.load_event in HE. destruct (validate self ps f); [|discriminate]. cbn [negb] in HE.
  set (df := subsample self positions (rows f) (seed + Z.of_nat i)) in *.
  destruct (sequence (map log_prior df)) as [lp|] eqn:S1; [|discriminate]. cbn [bind] in HE.
  destruct (sequence (map (posterior_row self ps) df)) as [dd|] eqn:S2; [|discriminate]. cbn [bind] in HE. injection HE as E3 E4. subst dd lp.
  set (picked := match max_samples self with
                 | Some n => if (n <? length (rows f))%nat then positions (seed + Z.of_nat i)%Z n (length (rows f)) else seq 0 (length (rows f))
                 | None => seq 0 (length (rows f))
                 end).
  assert (Hall : map (fun j => nth j (rows f) []) (seq 0 (length (rows f))) = rows f).
  { clear. induction (rows f) as [|r t IH]; auto. cbn [length seq map nth]. f_equal. rewrite <- seq_shift, map_map. exact IH. }
  assert (Hdf : df = map (fun j => nth j (rows f) []) picked).
  { unfold df, subsample, picked. destruct (max_samples self) as [n|]; [|now rewrite Hall].
    destruct (Nat.leb_spec (length (rows f)) n), (Nat.ltb_spec n (length (rows f))); try lia; [now rewrite Hall|reflexivity]. }
  apply sequence_spec in S1, S2. exists d, l, picked. split; auto. split; auto.
  assert (E1 : length (map log_prior df) = length l) by (rewrite S1, map_length; reflexivity).
  assert (E2 : length (map (posterior_row self ps) df) = length d) by (rewrite S2, map_length; reflexivity).
  rewrite Hdf, !map_length in E1, E2. split; [auto|]. split; [auto|]. split; [reflexivity|].
  intros k j Hk.
  assert (HR : nth_error df k = Some (nth j (rows f) [])) by (rewrite Hdf; exact (map_nth_error (fun j => nth j (rows f) []) k picked Hk)).
  assert (Kk : (k < length picked)%nat) by (apply nth_error_Some; congruence).
  destruct (nth_error d k) as [dk|] eqn:Ek; [|apply nth_error_None in Ek; lia].
  destruct (nth_error l k) as [lk|] eqn:El; [|apply nth_error_None in El; lia].
  exists dk, lk. split; auto. split; auto.
  pose proof (map_nth_error log_prior k df HR) as M1. rewrite S1 in M1. rewrite (map_nth_error Some k l El) in M1.
  pose proof (map_nth_error (posterior_row self ps) k df HR) as M2. rewrite S2 in M2. rewrite (map_nth_error Some k d Ek) in M2.
  injection M1 as M1. injection M2 as M2. split; [|congruence]. symmetry in M2. unfold posterior_row in M2. apply sequence_spec in M2. exact M2.
Qed.
(** At most the requested number of samples is kept; the draws of two events use different seeds. *)
Theorem C77_number : (forall s n total, (n <= total)%nat -> length (positions s n total) = n) ->
  forall files seed data lps i f d, load files seed = Some (data, lps) -> nth_error files i = Some f -> nth_error data i = Some d ->
  length d = match max_samples self with Some n => Nat.min n (length (rows f)) | None => length (rows f) end.
Proof.
  intros HP files seed data lps i f d H Hf Hd. destruct (C77_rows files seed data lps H) as [_ [_ K]].
  destruct (K i f Hf) as [d' [l' [picked [Hd' [_ [L [_ [-> _]]]]]]]]. rewrite Hd' in Hd. injection Hd as ->.
  rewrite L. destruct (max_samples self) as [n|]; [|apply seq_length].
  destruct (Nat.ltb_spec n (length (rows f))); [rewrite HP by lia; lia|rewrite seq_length; lia].
Qed.
(** A file without one of the requested columns is an error. *)
Theorem C77_missing_column : forall files seed f p, In f files -> In p ps -> ~ In (alias self p) (columns f) -> load files seed = None.
Proof.
  intros files seed f p Hf Hp N. unfold Model_Discrete.load. generalize 0%nat. revert f Hf N. induction files as [|g files IH]; intros f [] N i; cbn [Model_Discrete.load_from].
  - subst g. unfold Model_Discrete.load_event. replace (validate self ps f) with false; [reflexivity|]. symmetry. apply not_true_iff_false.
    intros V. unfold validate in V. rewrite forallb_forall in V. apply V in Hp. apply wants_In in Hp. contradiction.
  - destruct (load_event g (seed + Z.of_nat i)); [|reflexivity]. cbn [bind]. now rewrite (IH f H N).
Qed.
End Load.
Print Assumptions C77_rows.
Print Assumptions C77_number.
Print Assumptions C77_missing_column.
(** Aliases only rename columns: loading a file through aliases is loading the file with the columns renamed. *)
Definition without_aliases (self : loader) : loader :=
  {| parameter_aliases := []; max_samples := max_samples self; mass_prior := mass_prior self; component_spin := component_spin self; distance_prior := distance_prior self |}.
Theorem C77_aliases : forall self positions logdVcdz z_to_DL dDLdz chieff_prior chieff_chip_prior ps seed files files',
  Forall2 (fun f f' => (forall p, In (alias self p) (columns f) <-> In p (columns f'))
                       /\ Forall2 (fun r r' => forall p, dget r (alias self p) = dget r' p) (rows f) (rows f')) files files' ->
  load self positions logdVcdz z_to_DL dDLdz chieff_prior chieff_chip_prior ps files seed
  = load (without_aliases self) positions logdVcdz z_to_DL dDLdz chieff_prior chieff_chip_prior ps files' seed.
Proof.
  intros self positions logdVcdz z_to_DL dDLdz cp ccp ps seed files files' H.
  assert (A : forall p, alias (without_aliases self) p = p) by reflexivity.
  assert (HR : forall r r', (forall p, dget r (alias self p) = dget r' p) ->
     log_prior self logdVcdz z_to_DL dDLdz cp ccp ps r = log_prior (without_aliases self) logdVcdz z_to_DL dDLdz cp ccp ps r'
     /\ posterior_row self ps r = posterior_row (without_aliases self) ps r').
  { intros r r' E.
    assert (C : forall p, col self r p = col (without_aliases self) r' p) by (intros p; unfold col; rewrite A; apply E).
    assert (Q : get_q self r = get_q (without_aliases self) r').
    { unfold get_q. rewrite !has_key_dget, !C, !E, !A. reflexivity. }
    split.
    - unfold log_prior, distance_log_prior, mass_log_prior, spin_log_prior, add_aligned. rewrite Q, !C. reflexivity.
    - unfold posterior_row. f_equal. apply map_ext. exact C. }
  assert (HE : forall f f' s, (forall p, In (alias self p) (columns f) <-> In p (columns f')) ->
     Forall2 (fun r r' => forall p, dget r (alias self p) = dget r' p) (rows f) (rows f') ->
     load_event self positions logdVcdz z_to_DL dDLdz cp ccp ps f s = load_event (without_aliases self) positions logdVcdz z_to_DL dDLdz cp ccp ps f' s).
  { intros f f' s HC HRows. unfold load_event.
    replace (validate self ps f) with (validate (without_aliases self) ps f').
    2:{ unfold validate. apply eq_true_iff_eq. rewrite !forallb_forall. split; intros V p Hp; specialize (V p Hp); apply wants_In; apply wants_In in V; rewrite ?A in *; now apply HC. }
    destruct (validate _ _ _); [|reflexivity]. cbn [negb].
    assert (S : Forall2 (fun r r' => forall p, dget r (alias self p) = dget r' p) (subsample self positions (rows f) s) (subsample (without_aliases self) positions (rows f') s)).
    { unfold subsample. cbn [max_samples without_aliases]. destruct (max_samples self) as [n|]; auto.
      assert (LL : length (rows f) = length (rows f')) by (clear -HRows; induction HRows; cbn; congruence). rewrite LL. destruct (_ <=? _)%nat; auto.
      induction (positions s n (length (rows f'))) as [|i l IH]; constructor; auto.
      clear -HRows. revert i. induction HRows; intros [|i]; cbn; auto. }
    assert (M : forall T (g g' : list (string * X) -> T) l l', Forall2 (fun r r' => forall p, dget r (alias self p) = dget r' p) l l' ->
       (forall r r', (forall p, dget r (alias self p) = dget r' p) -> g r = g' r') -> map g l = map g' l').
    { intros T g g' l l' F G. induction F; cbn; auto. f_equal; auto. }
    rewrite (M _ (log_prior self logdVcdz z_to_DL dDLdz cp ccp ps) (log_prior (without_aliases self) logdVcdz z_to_DL dDLdz cp ccp ps) _ _ S) by (intros; now apply HR).
    rewrite (M _ (posterior_row self ps) (posterior_row (without_aliases self) ps) _ _ S) by (intros; now apply HR). reflexivity. }
  unfold load. generalize 0%nat. induction H as [|f f' l l' [HC HRw] _ IH]; intros i; cbn [load_from]; auto.
  rewrite (HE f f' _ HC HRw). destruct (load_event _ _ _ _ _ _ _ _ f' _); [|reflexivity]. cbn [bind]. now rewrite IH.
Qed.
Print Assumptions C77_aliases.
Example C77_nonvacuous :
  load {| parameter_aliases := [("mass_1", "m")]%string; max_samples := Some 1%nat; mass_prior := None; component_spin := false; distance_prior := None |}
    (fun s n _ => repeat (Z.to_nat s) n) (fun x => x) (fun x => x) (fun x => x) (fun x _ => x) (fun x _ _ => x) ["mass_1"]%string
    [{| columns := ["m"]%string; rows := [[("m", Fin 3)]; [("m", Fin 4)]]%string |}; {| columns := ["m"]%string; rows := [[("m", Fin 5)]; [("m", Fin 6)]]%string |}] 0
  = Some ([[[Fin 3]]; [[Fin 6]]], [[Fin (0 + 0 + 0 + 0)]; [Fin (0 + 0 + 0 + 0)]]).
Proof. reflexivity. Qed.

(** ** C78 *)
From Coquelicot Require Import Coquelicot.
(** The distance prior per redshift: the derivative of the Euclidean volume of the luminosity distance, up
    to the constant 4 pi; *)
Theorem C78_euclidean : forall self logdVcdz z_to_DL dDLdz ps r z DL D,
  distance_prior self = Some Euclidean -> In "redshift"%string ps -> dget r (alias self "redshift") = Some (Fin z) ->
  z_to_DL (Fin z) = Fin (DL z) -> dDLdz (Fin z) = Fin D -> derivable_pt_lim DL z D -> 0 < DL z -> 0 < D ->
  exists V, derivable_pt_lim (fun x => (DL x) ^ 3 / 3) z V /\ 0 < V /\ distance_log_prior self logdVcdz z_to_DL dDLdz ps r = Some (Fin (ln V)).
Proof.
  intros self lV zDL dDL ps r z DL D Hd Hr Hz E1 E2 HD P1 P2. exists (DL z * DL z * D).
  assert (PV : 0 < DL z * DL z) by nra. split; [|split; [now apply Rmult_lt_0_compat|]].
  - apply is_derive_Reals. apply is_derive_Reals in HD.
    evar_last; [exact (scale_derive (fun x => DL x ^ 3) z (INR 3 * D * DL z ^ 2) (/ 3) (is_derive_pow DL 3 z D HD))|]. cbn. field.
  - unfold distance_log_prior. apply wants_In in Hr. rewrite Hd, Hr. cbn [negb]. unfold col. rewrite Hz. cbn [bind]. rewrite E1, E2, !xln_pos by auto.
    cbn [xmul xadd]. rewrite !ln_mult by auto. do 2 f_equal. ring.
Qed.
Print Assumptions C78_euclidean.
(** and the comoving volume element over 1 + z, up to the constant 4 pi. *)
Theorem C78_comoving : forall self logdVcdz z_to_DL dDLdz ps r z V,
  distance_prior self = Some Comoving -> In "redshift"%string ps -> dget r (alias self "redshift") = Some (Fin z) ->
  0 < 1 + z -> 0 < V -> logdVcdz (Fin z) = Fin (ln V) ->
  distance_log_prior self logdVcdz z_to_DL dDLdz ps r = Some (Fin (ln (V / (1 + z)) + ln (4 * PI))).
Proof.
  intros self lV zDL dDL ps r z V Hd Hr Hz Pz PV E. unfold distance_log_prior. apply wants_In in Hr. rewrite Hd, Hr. cbn [negb]. unfold col. rewrite Hz. cbn [bind].
  rewrite E, xlog1p_Fin by auto. unfold xsub. cbn [xadd xopp]. unfold Rdiv. rewrite (ln_mult V (/ (1 + z))), ln_Rinv by (auto; now apply Rinv_0_lt_compat). do 2 f_equal. ring.
Qed.
Print Assumptions C78_comoving.
(** Without the redshift among the parameters a distance prior is refused. *)
Theorem C78_needs_redshift : forall self logdVcdz z_to_DL dDLdz ps r dp, distance_prior self = Some dp -> ~ In "redshift"%string ps ->
  distance_log_prior self logdVcdz z_to_DL dDLdz ps r = None.
Proof.
  intros self lV zDL dDL ps r dp Hd H. unfold distance_log_prior. rewrite Hd. destruct (wants "redshift" ps) eqn:E; [|reflexivity]. apply wants_In in E. contradiction.
Qed.
Print Assumptions C78_needs_redshift.
(** The spin prior: 1/4 for two component spins with magnitude and tilt, times the isotropic density of
    the effective spins asked for at the mass ratio of the sample, times the aligned-spin densities. *)
Theorem C78_spin : forall self chieff_prior chieff_chip_prior ps r c z u v e x1 x2,
  0 < 1 + z -> 0 < u -> 0 < v -> row_has self r c z u v ->
  let q := source_mass_2 c z u v / source_mass_1 c z u v in
  (In "chi_eff"%string ps -> 0 < e /\ exists ce, dget r (alias self "chi_eff") = Some (Fin ce)
     /\ (In "chi_p"%string ps -> exists cp, dget r (alias self "chi_p") = Some (Fin cp) /\ chieff_chip_prior (Fin ce) (Fin cp) (Fin q) = Fin e)
     /\ (~ In "chi_p"%string ps -> chieff_prior (Fin ce) (Fin q) = Fin e)) ->
  (In "chi_1"%string ps -> dget r (alias self "chi_1") = Some (Fin x1) /\ 0 < Rabs x1 < 1) ->
  (In "chi_2"%string ps -> dget r (alias self "chi_2") = Some (Fin x2) /\ 0 < Rabs x2 < 1) ->
  spin_log_prior self chieff_prior chieff_chip_prior ps r
  = Some (Fin (ln ((if component_spin self then 1/2 * (1/2) else 1)
                   * (if wants "chi_eff" ps then e else 1)
                   * (if wants "chi_1" ps then - ln (Rabs x1) / 2 else 1)
                   * (if wants "chi_2" ps then - ln (Rabs x2) / 2 else 1)))).
Proof.
  intros self cp ccp ps r c z u v e x1 x2 Hz Hu Hv Hrow q He H1 H2.
  pose proof (get_q_spec self r c z u v Hz Hu Hv Hrow) as Q. fold q in Q. clearbody q.
  assert (AL : forall x, 0 < Rabs x < 1 -> aligned_spin_prior (Fin x) = Fin (- ln (Rabs x) / 2) /\ 0 < - ln (Rabs x) / 2).
  { intros x Hx. split; [apply aligned_fin; intros ->; rewrite Rabs_R0 in Hx; lra|].
    assert (ln (Rabs x) < ln 1) by (apply ln_increasing; lra). rewrite ln_1 in H. lra. }
  set (A := if component_spin self then 1/2 * (1/2) else 1). assert (PA : 0 < A) by (unfold A; destruct (component_spin self); lra).
  assert (EA : (if component_spin self then xsub (Fin 0) (Fin (ln 4)) else Fin 0) = Fin (ln A)).
  { unfold A. destruct (component_spin self); [|now rewrite ln_1]. unfold xsub. cbn [xopp xadd].
    replace (1/2 * (1/2)) with (/ 4) by field. rewrite ln_Rinv by lra. f_equal. ring. }
  clearbody A. unfold spin_log_prior. rewrite EA. clear EA.
  set (E := if wants "chi_eff" ps then e else 1). 
  assert (PE : 0 < E). { unfold E. destruct (wants "chi_eff" ps) eqn:W; [|lra]. apply wants_In in W. now destruct (He W). }
  match goal with |- add_aligned _ _ _ _ (add_aligned _ _ _ _ ?t) = _ => assert (ET : t = Some (Fin (ln (A * E)))) end.
  { unfold E. rewrite ln_mult by auto. unfold E. destruct (wants "chi_eff" ps) eqn:W; [|now rewrite ln_1, Rplus_0_r].
    apply wants_In in W. destruct (He W) as [Pe [ce [C1 [C2 C3]]]]. unfold col. rewrite C1, Q. cbn [bind].
    destruct (wants "chi_p" ps) eqn:W2.
    - apply wants_In in W2. destruct (C2 W2) as [cpv [G K]]. rewrite G. cbn [bind]. rewrite K. now rewrite xln_pos by auto.
    - rewrite C3 by (intros I; apply wants_In in I; congruence). now rewrite xln_pos by auto. }
  rewrite ET. clear ET. assert (PAE : 0 < A * E) by (now apply Rmult_lt_0_compat). set (B := A * E) in *. clearbody B. clear He.
  unfold add_aligned, col.
  set (F1 := if wants "chi_1" ps then - ln (Rabs x1) / 2 else 1).
  assert (S1 : 0 < F1 /\ (if wants "chi_1" ps then bind (Some (Fin (ln B))) (fun lp => bind (dget r (alias self "chi_1")) (fun chi => Some (xadd lp (xln (aligned_spin_prior chi))))) else Some (Fin (ln B))) = Some (Fin (ln (B * F1)))).
  { unfold F1. destruct (wants "chi_1" ps) eqn:W; [|split; [lra|now rewrite Rmult_1_r]]. apply wants_In in W. destruct (H1 W) as [G Hx]. destruct (AL x1 Hx) as [K Px]. rewrite G.
    split; auto. cbn [bind]. rewrite K. rewrite xln_pos by auto. cbn [xadd]. now rewrite <- ln_mult by auto. }
  destruct S1 as [PF1 ->]. assert (PB : 0 < B * F1) by (now apply Rmult_lt_0_compat). set (B2 := B * F1) in *. clearbody B2 F1.
  destruct (wants "chi_2" ps) eqn:W; [|now rewrite Rmult_1_r]. apply wants_In in W. destruct (H2 W) as [G Hx]. destruct (AL x2 Hx) as [K Px]. rewrite G.
  cbn [bind]. rewrite K. rewrite xln_pos by auto. cbn [xadd]. now rewrite <- ln_mult by auto.
Qed.
Print Assumptions C78_spin.
(** The log prior of a sample is the sum of the three. *)
Theorem C78_total : forall self logdVcdz z_to_DL dDLdz chieff_prior chieff_chip_prior ps r d m s,
  distance_log_prior self logdVcdz z_to_DL dDLdz ps r = Some (Fin d) -> mass_log_prior self ps r = Some (Fin m) ->
  spin_log_prior self chieff_prior chieff_chip_prior ps r = Some (Fin s) ->
  log_prior self logdVcdz z_to_DL dDLdz chieff_prior chieff_chip_prior ps r = Some (Fin (d + m + s)).
Proof.
  intros self lV zDL dDL cp ccp ps r d m s E1 E2 E3. unfold log_prior. rewrite E1, E2, E3. cbn [bind xadd]. do 2 f_equal. ring.
Qed.
Print Assumptions C78_total.
Example C78_nonvacuous :
  let self := {| parameter_aliases := []; max_samples := None; mass_prior := None; component_spin := true; distance_prior := Some Euclidean |} in
  let r := [("mass_1_source", Fin 30); ("mass_ratio", Fin (1/2)); ("redshift", Fin 1); ("chi_1", Fin (1/2))]%string in
  distance_log_prior self (fun z => z) (fun z => xmul (Fin 2) z) (fun _ => Fin 2) ["redshift"; "chi_1"]%string r = Some (Fin (ln 8))
  /\ spin_log_prior self (fun _ _ => NaN) (fun _ _ _ => NaN) ["redshift"; "chi_1"]%string r = Some (Fin (ln (1/4 * (ln 2 / 2)))).
Proof.
  intros self r. split.
  - destruct (C78_euclidean self (fun z => z) (fun z => xmul (Fin 2) z) (fun _ => Fin 2) ["redshift"; "chi_1"]%string r 1 (fun z => 2 * z) 2)
      as [V [HV [PV E]]]; try reflexivity; try lra; try (cbn; now auto).
    + apply is_derive_Reals. auto_derive; auto. ring.
    + rewrite E. do 3 f_equal. apply (uniqueness_limite _ _ _ _ HV). apply is_derive_Reals. auto_derive; auto. field.
  - rewrite (C78_spin self (fun _ _ => NaN) (fun _ _ _ => NaN) ["redshift"; "chi_1"]%string r SourceRatio 1 30 (1/2) 0 (1/2) 0); try lra.
    + do 3 f_equal. cbn. rewrite Rabs_right by lra. replace (1/2) with (/2) by lra. rewrite ln_Rinv by lra. field.
    + unfold row_has. cbn. repeat split; try discriminate; intros; try (injection H as <-); try (f_equal; field).
    + cbn. intuition discriminate.
    + intros _. split; [reflexivity|]. rewrite Rabs_right; lra.
    + cbn. intuition discriminate.
Qed.
