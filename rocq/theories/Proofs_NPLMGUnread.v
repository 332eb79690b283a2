(** Hyper-parameters that are not read, and the admissibility check of the Beta spins. *)
From Coq Require Import Decimal DecimalString DecimalNat DecimalFacts.
From Coq Require Import String Ascii List Bool Arith Lia.
From Verif Require Import Model_X Model_Joint Model_Guru Model_Config Spec_Config Proofs_Guru Proofs_Config
  Model_NPLMG Spec_NPLMG Proofs_NPLMG.
Import ListNotations.
Open Scope string_scope.
Open Scope nat_scope.

(** ** values that do not reach the model *)
Definition digit (c : ascii) : bool := existsb (Ascii.eqb c) ["0"; "1"; "2"; "3"; "4"; "5"; "6"; "7"; "8"; "9"]%char.
Fixpoint ends_in_digit (s : string) : bool :=
  match s with
  | EmptyString => false
  | String c EmptyString => digit c
  | String _ t => ends_in_digit t
  end.
Lemma ends_in_digit_app a c t : ends_in_digit (a ++ String c t) = ends_in_digit (String c t).
Proof. induction a as [|x a IH]; auto. cbn [append]. rewrite <- IH. destruct a; reflexivity. Qed.
Lemma uint_ends u : u <> Nil -> exists c t, NilEmpty.string_of_uint u = String c t /\ ends_in_digit (String c t) = true.
Proof.
  induction u; intros H; [now elim H|..];
  (destruct u; [eexists; eexists; split; reflexivity|..];
   (destruct IHu as (c & t & E & D); [discriminate|]; cbn [NilEmpty.string_of_uint] in *; rewrite E;
    eexists; eexists; split; [reflexivity|]; cbn [ends_in_digit]; exact D)).
Qed.
Lemma numbered_ends name i : ends_in_digit (numbered name i) = true.
Proof.
  unfold numbered. destruct (uint_ends (Nat.to_uint i)) as (c & t & E & D); [rewrite <- (DecimalNat.Unsigned.of_to i), DecimalNat.Unsigned.to_of; apply unorm_nonnil|].
  rewrite E. change ("_" ++ String c t)%string with (String "_" (String c t)). rewrite ends_in_digit_app. exact D.
Qed.

Definition reads_nothing {V} (rs : list (@read V)) : bool :=
  forallb (fun r : @read V => negb (existsb (String.eqb (fst (fst r))) unread) && negb (ends_in_digit (fst (fst r)))) rs.

Section Unread.
Context {V : Type}.
Variables one zero : V.
Variables params params' : params_t V.
Hypothesis same : forall k, (forall u j, In u unread -> k <> numbered u j) -> dget params k = dget params' k.

Lemma create_same N k fields : reads_nothing (flat_map snd fields) = true ->
  create N k fields params = create N k fields params'.
Proof.
  intros H. unfold create. apply map_opt_ext. intros i _. f_equal. apply map_opt_ext. intros f Hf.
  f_equal. apply map_opt_ext. intros r Hr. unfold reads_nothing in H. rewrite forallb_forall in H.
  specialize (H r). rewrite in_flat_map in H. specialize (H (ex_intro _ f (conj Hf Hr))).
  apply andb_true_iff in H as [H1 H2]. apply negb_true_iff in H1, H2.
  destruct r as [[name nec] dflt]. cbn [fst] in H1, H2. unfold fetch, get_parameter.
  rewrite numbered_decimal. cbn [fetch_first].
  rewrite (same (numbered name i)), (same name); auto.
  - intros u j Hu E. subst name. now rewrite numbered_ends in H2.
  - intros u j Hu E. apply numbered_inj2 in E as [<- _].
    assert (existsb (String.eqb name) unread = true); [|congruence].
    apply existsb_exists. exists name. split; auto. apply String.eqb_refl.
Qed.
Definition entry_same (ct : string) (N : nat) (e : bool * string * @builder V) : Prop :=
  let '(_, pname, b) := e in b N pname ct params = b N pname ct params'.
Lemma loop_same ct N es : List.Forall (entry_same ct N) es -> forall cs,
  fold_left (non_mass_step N ct params) es cs = fold_left (non_mass_step N ct params') es cs.
Proof.
  induction 1 as [|e es He Hes IH]; intros cs; cbn [fold_left]; auto. rewrite IH. f_equal.
  destruct e as [[use pname] b], cs as [cs|]; cbn; auto. cbn in He. now rewrite He.
Qed.
Lemma table_same ct N u : In ct ["pl"; "g"] -> List.Forall (entry_same ct N) (info_collection one zero u).
Proof.
  intros [<-|[<-|[]]]; unfold info_collection; repeat (apply Forall_cons; [|]); try apply Forall_nil;
  (apply create_same; vm_compute; reflexivity).
Qed.
Lemma log_rate_read i u j : In u unread -> numbered "log_rate" i <> numbered u j.
Proof.
  intros Hu E. apply numbered_inj2 in E as [<- _].
  assert (existsb (String.eqb "log_rate") unread = true) as X.
  { apply existsb_exists. exists "log_rate". split; auto. }
  vm_compute in X. discriminate.
Qed.
Lemma model_same N_pl N_g u :
  n_powerlaw_m_gaussian one zero N_pl N_g u params = n_powerlaw_m_gaussian one zero N_pl N_g u params'.
Proof.
  unfold n_powerlaw_m_gaussian.
  assert (P : build_pl_component_distributions one zero N_pl u params = build_pl_component_distributions one zero N_pl u params').
  { unfold build_pl_component_distributions, create_powerlaw_primary_mass_ratios, build_non_mass_distributions.
    rewrite create_same by (vm_compute; reflexivity).
    destruct (create N_pl _ _ params'); auto. apply loop_same, table_same. cbn; auto. }
  assert (G : build_g_component_distributions one zero N_g u params = build_g_component_distributions one zero N_g u params').
  { unfold build_g_component_distributions, create_truncated_normal_distributions, build_non_mass_distributions.
    rewrite !create_same by (vm_compute; reflexivity).
    destruct (create N_g _ _ params') as [m1|]; auto. destruct (create N_g _ _ params') as [m2|]; auto.
    apply loop_same, table_same. cbn; auto. }
  rewrite P, G.
  rewrite (map_opt_ext _ (fun i => match dget params' ("log_rate_" ++ decimal i)%string with Some v => v | None => None end)); auto.
  intros i _. change ("log_rate_" ++ decimal i)%string with (numbered "log_rate" i).
  rewrite same; auto. intros w j. apply log_rate_read.
Qed.
End Unread.

(** ** the admissibility check *)
Definition absent_bases : list string :=
  ["chi1_mean_pl"; "chi2_mean_pl"; "chi1_variance_pl"; "chi2_variance_pl";
   "chi1_mean_g"; "chi2_mean_g"; "chi1_variance_g"; "chi2_variance_g"].
Lemma check_key_absent {V} fl N_pl N_g (kwargs : list (string * V)) b j :
  (forall k, dget kwargs k <> None -> In k (model_parameters fl N_pl N_g) \/ In k constant_names) ->
  In b absent_bases -> dget kwargs (numbered b j) = None.
Proof.
  intros H Hb. destruct (dget kwargs (numbered b j)) eqn:E; auto. exfalso.
  destruct (H (numbered b j)) as [M|M]; [congruence|..].
  - apply in_model_parameters in M as (name & c & i & M & _ & Eq). apply numbered_inj2 in Eq as [<- _].
    apply name_in_all in M.
    assert (X : existsb (fun a => existsb (String.eqb a) all_names) absent_bases = true).
    { apply existsb_exists. exists b. split; auto. apply existsb_exists. exists b. split; auto. apply String.eqb_refl. }
    vm_compute in X. discriminate.
  - assert (X : existsb (fun s => match s with String "c" _ => true | _ => false end) constant_names = true).
    { apply existsb_exists. exists (numbered b j). split; auto.
      unfold absent_bases in Hb. repeat (destruct Hb as [<-|Hb]; [reflexivity|]). destruct Hb. }
    vm_compute in X. discriminate.
Qed.
Lemma check_raises {V} (check : V -> V -> bool) fl N_pl N_g (kwargs : list (string * V)) :
  (forall k, dget kwargs k <> None -> In k (model_parameters fl N_pl N_g) \/ In k constant_names) ->
  mean_variance_check check N_pl N_g kwargs = None.
Proof.
  intros H.
  assert (P : forall n, map_opt (fun p : nat * nat => dget kwargs ("chi" ++ decimal (snd p) ++ "_mean_pl_" ++ decimal (fst p))%string)
              (flat_map (fun j => [(j, 1); (j, 2)]) (seq 0 (S n))) = None).
  { intros n. cbn [seq flat_map app map_opt snd fst].
    change ("chi" ++ decimal 1 ++ "_mean_pl_" ++ decimal 0)%string with (numbered "chi1_mean_pl" 0).
    rewrite (check_key_absent _ _ _ _ _ _ H); auto. cbn; auto. }
  assert (G : forall n, map_opt (fun p : nat * nat => dget kwargs ("chi" ++ decimal (snd p) ++ "_mean_g_" ++ decimal (fst p))%string)
              (flat_map (fun j => [(j, 1); (j, 2)]) (seq 0 (S n))) = None).
  { intros n. cbn [seq flat_map app map_opt snd fst].
    change ("chi" ++ decimal 1 ++ "_mean_g_" ++ decimal 0)%string with (numbered "chi1_mean_g" 0).
    rewrite (check_key_absent _ _ _ _ _ _ H); auto. cbn; auto 9. }
  unfold mean_variance_check. destruct N_pl as [|a], N_g as [|b]; cbn [Nat.ltb Nat.leb andb]; auto.
  - now rewrite G.
  - now rewrite P.
  - now rewrite P.
Qed.
