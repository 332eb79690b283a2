(** C149: the number of dimensions that flowMC_info infers is the one the sampler runs with. *)
From Coq Require Import String List ZArith Bool Reals Lia Lra.
From Verif Require Import Model_X Model_Settings Model_Scripts Spec_Settings Props_Settings Model_Dims.
Import ListNotations.
Open Scope string_scope.

Lemma numbers_length l : forall d, numbers l = Some d -> length d = length l.
Proof.
  induction l as [|v t IH]; intros d H; cbn in H; [now injection H as <-|].
  destruct (number v), (numbers t) as [r|]; try discriminate. injection H as <-. cbn. now rewrite (IH r eq_refl).
Qed.
Lemma rows_length l : forall d, number_rows l = Some d -> length d = length l.
Proof.
  induction l as [|v t IH]; intros d H; cbn in H; [now injection H as <-|].
  destruct v; try discriminate. destruct (numbers l), (number_rows t) as [r|]; try discriminate. injection H as <-. cbn. now rewrite (IH r eq_refl).
Qed.

(** the driver accepts the settings for a model with n parameters and the mass matrix is a list: flowMC_info finds n, for
    vectors and for matrices *)
Theorem C149_mass_matrix : forall int_of_text eigvalsh n cfg m l,
  accept eigvalsh n cfg = Some m -> cfg "mass_matrix" = Some (JList l) -> cfg "n_dims" = None ->
  infer_n_dims int_of_text cfg None = Z.of_nat n.
Proof.
  intros it eig n cfg m l H El En. unfold infer_n_dims. rewrite En, El. f_equal.
  unfold accept in H. destruct (forallb _ _ && _ && _); [|discriminate].
  assert (Ev : value cfg "mass_matrix" = Some (JList l)) by (unfold value; now rewrite El). rewrite Ev in H.
  unfold read_mass in H. cbn [number int_value] in H. destruct (numbers l) as [d|] eqn:Ed.
  - apply numbers_length in Ed. destruct (Nat.eqb_spec (length d) n); [congruence|discriminate].
  - destruct (number_rows l) as [rows|] eqn:Er; [|discriminate]. apply rows_length in Er.
    destruct (Nat.eqb_spec (length rows) n); [congruence|discriminate].
Qed.
Print Assumptions C149_mass_matrix.

(** the command line comes first, then an entry n_dims that is a number, whatever the mass matrix; an unreadable entry is
    passed over *)
Theorem C149_precedence : forall int_of_text cfg,
  (forall n, infer_n_dims int_of_text cfg (Some n) = n)
  /\ (forall z, cfg "n_dims" = Some (JInt z) -> infer_n_dims int_of_text cfg None = z)
  /\ (forall b, cfg "n_dims" = Some (JBool b) -> infer_n_dims int_of_text cfg None = if b then 1%Z else 0%Z)
  /\ (forall t z, cfg "n_dims" = Some (JStr t) -> int_of_text t = Some z -> infer_n_dims int_of_text cfg None = z)
  /\ (forall v l, cfg "n_dims" = Some v ->
      v = JNull \/ (exists x, v = JList x) \/ (exists x, v = JObj x) \/ (exists t, v = JStr t /\ int_of_text t = None) \/ v = JFloat NaN \/ v = JFloat PInf \/ v = JFloat NInf ->
      cfg "mass_matrix" = Some (JList l) -> infer_n_dims int_of_text cfg None = Z.of_nat (length l)).
Proof.
  intros it cfg. split; [reflexivity|]. split.
  { intros z E. unfold infer_n_dims. now rewrite E. }
  split; [intros b E; unfold infer_n_dims; now rewrite E|].
  split; [intros t z E Ht; unfold infer_n_dims; rewrite E; cbn [python_int]; now rewrite Ht|].
  intros v l E Hv El. unfold infer_n_dims. rewrite E, El.
  destruct Hv as [H|[[x H]|[[x H]|[[t [H Ht]]|[H|[H|H]]]]]]; rewrite H; try reflexivity. cbn [python_int]. now rewrite Ht.
Qed.
Print Assumptions C149_precedence.

(** an entry n_dims that is a float is cut towards zero: 0.9 and -0.9 give 0, and no suggestions *)
Theorem C149_float : forall int_of_text cfg x z, cfg "n_dims" = Some (JFloat (Fin x)) -> infer_n_dims int_of_text cfg None = z ->
  (Rabs (IZR z) <= Rabs x < Rabs (IZR z) + 1)%R /\ (0 <= IZR z * x)%R.
Proof.
  intros it cfg x z E <-. unfold infer_n_dims. rewrite E. cbn [python_int]. unfold trunc.
  assert (P : forall y, (0 <= y)%R -> (0 <= IZR (Int_part y))%R).
  { intros y Hy. destruct (base_Int_part y) as [H1 H2]. apply IZR_le.
    assert (H : (-1 < Int_part y)%Z) by (apply lt_IZR; lra). lia. }
  destruct (Rle_dec 0 x) as [H|H].
  - destruct (base_Int_part x) as [H1 H2]. specialize (P x H). rewrite !Rabs_pos_eq by assumption. split; [lra|now apply Rmult_le_pos].
  - destruct (base_Int_part (- x)) as [H1 H2]. assert (Hn : (0 <= - x)%R) by lra. specialize (P (- x)%R Hn).
    rewrite opp_IZR, Rabs_Ropp, (Rabs_left x), Rabs_pos_eq by lra. split; [lra|].
    replace (- IZR (Int_part (- x)) * x)%R with (IZR (Int_part (- x)) * - x)%R by ring. now apply Rmult_le_pos.
Qed.
Print Assumptions C149_float.
Example C149_float_nonvacuous : exists cfg : settings, cfg "n_dims" = Some (JFloat (Fin (-5 / 2))) /\ infer_n_dims (fun _ => None) cfg None = (-2)%Z.
Proof.
  exists (fun _ => Some (JFloat (Fin (-5 / 2)))). split; [reflexivity|].
  pose proof (C149_float (fun _ => None) (fun _ => Some (JFloat (Fin (-5 / 2)))) (-5 / 2) _ eq_refl eq_refl) as [[H1 H2] H3].
  set (z := infer_n_dims _ _ _) in *. rewrite (Rabs_left (-5 / 2)) in * by lra.
  assert (Hz : (IZR z <= 0)%R) by lra. rewrite Rabs_left1 in * by exact Hz.
  assert (A : (-3 < z)%Z) by (apply lt_IZR; lra). assert (B : (z < -1)%Z) by (apply lt_IZR; lra). lia.
Qed.

(** a diagonal mass matrix for three parameters *)
Definition diagonal : settings := update template_settings "mass_matrix" (JList [JFloat (Fin 1); JFloat (Fin 2); JInt 3]).
Example C149_precedence_nonvacuous :
  infer_n_dims (fun _ => None) (update diagonal "n_dims" (JInt 7)) None = 7%Z
  /\ infer_n_dims (fun _ => None) (update diagonal "n_dims" JNull) None = 3%Z
  /\ infer_n_dims (fun _ => None) (update diagonal "n_dims" (JInt 7)) (Some 2%Z) = 2%Z.
Proof. repeat split. Qed.

(** suggestions are displayed exactly when a positive number is found *)
Theorem C149_suggestions : forall int_of_text cfg cli chains kept,
  suggestions int_of_text cfg cli chains kept <> None <-> (0 < infer_n_dims int_of_text cfg cli)%Z.
Proof.
  intros it cfg cli chains kept. unfold suggestions. destruct (Z.ltb_spec 0 (infer_n_dims it cfg cli)) as [H|H].
  - split; [auto|]. intros _. unfold generate_heuristics. destruct (Z.eqb_spec (infer_n_dims it cfg cli) 0); [lia|].
    destruct (_ <=? 15)%Z; [discriminate|]. destruct (_ <=? 30)%Z; discriminate.
  - split; [congruence|lia].
Qed.
Print Assumptions C149_suggestions.

Example C149_mass_matrix_nonvacuous : forall eigvalsh, exists m, accept eigvalsh 3 diagonal = Some m
  /\ infer_n_dims (fun _ => None) diagonal None = 3%Z
  /\ suggestions (fun _ => None) diagonal None 10 3200 = Some (mkheur 1600 5 16000 16000 1024 [64; 64]%Z 4 24 12)%Z.
Proof.
  intros eig. assert (E : forallb (check_entry diagonal) checked && check_hidden_units diagonal && check_sampler_name diagonal = true) by reflexivity.
  eexists. split; [|split; reflexivity]. unfold accept. rewrite E.
  change (value diagonal "mass_matrix") with (Some (JList [JFloat (Fin 1); JFloat (Fin 2); JInt 3])).
  unfold read_mass. cbn [number int_value numbers length Nat.eqb existsb xleb].
  repeat (destruct (Rle_dec _ _); [lra|]). reflexivity.
Qed.

(** but not for every accepted file: for the template itself, whose mass matrix is a number, nothing
    is found, although the driver runs it with any number of parameters.  The message says to put a mass_matrix into the
    file, which the template has. *)
Theorem C149_number_refuted : forall int_of_text eigvalsh n, exists m, accept eigvalsh n template_settings = Some m
  /\ template_settings "mass_matrix" <> None
  /\ infer_n_dims int_of_text template_settings None = 0%Z
  /\ forall chains kept, suggestions int_of_text template_settings None chains kept = None.
Proof.
  intros it eig n. destruct (C117_template_accepted eig n) as (A & H & _). exists (Matrix A).
  split; [exact H|]. split; [discriminate|]. split; reflexivity.
Qed.
Print Assumptions C149_number_refuted.

(** the same for a file name, a null or no mass matrix at all *)
Theorem C149_unknown : forall int_of_text cfg chains kept, cfg "n_dims" = None ->
  (forall l, cfg "mass_matrix" <> Some (JList l)) ->
  infer_n_dims int_of_text cfg None = 0%Z /\ suggestions int_of_text cfg None chains kept = None.
Proof.
  intros it cfg chains kept En H. assert (E : infer_n_dims it cfg None = 0%Z).
  { unfold infer_n_dims. rewrite En. destruct (cfg "mass_matrix") as [[]|]; try reflexivity. now destruct (H l). }
  split; [exact E|]. unfold suggestions. now rewrite E.
Qed.
Print Assumptions C149_unknown.
Example C149_unknown_nonvacuous : template_settings "n_dims" = None /\ forall l, template_settings "mass_matrix" <> Some (JList l).
Proof. split; [reflexivity|discriminate]. Qed.
