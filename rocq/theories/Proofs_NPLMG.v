From Coq Require Import Decimal DecimalString.
From Coq Require Import String Ascii List Bool Arith Lia.
From Verif Require Import Model_X Model_Joint Model_Guru Model_Config Spec_Config Proofs_Guru Proofs_Config
  Model_NPLMG Spec_NPLMG.
Import ListNotations.
Open Scope string_scope.
Open Scope nat_scope.

(** ** numbered names *)
Fixpoint has_underscore (s : string) : bool :=
  match s with EmptyString => false | String c t => (c =? "_")%char || has_underscore t end.
Lemma digits_no_underscore u : has_underscore (NilEmpty.string_of_uint u) = false.
Proof. induction u; simpl; auto. Qed.
Lemma has_underscore_app a b : has_underscore (a ++ b) = has_underscore a || has_underscore b.
Proof. induction a; simpl; auto. now rewrite IHa, orb_assoc. Qed.
Lemma split_last_underscore a b s t :
  has_underscore s = false -> has_underscore t = false ->
  (a ++ "_" ++ s)%string = (b ++ "_" ++ t)%string -> a = b /\ s = t.
Proof.
  revert b. induction a as [|c a IH]; intros [|c' b] Hs Ht E; cbn [append] in E.
  - injection E as E. auto.
  - injection E as _ E. subst s. rewrite has_underscore_app in Hs. cbn in Hs.
    rewrite orb_true_r in Hs. discriminate.
  - injection E as _ E. subst t. rewrite has_underscore_app in Ht. cbn in Ht.
    rewrite orb_true_r in Ht. discriminate.
  - injection E as -> E. destruct (IH b Hs Ht E) as [-> ->]. auto.
Qed.
Lemma numbered_inj2 a b i j : numbered a i = numbered b j -> a = b /\ i = j.
Proof.
  unfold numbered. intros E. apply split_last_underscore in E; try apply digits_no_underscore.
  destruct E as [-> E]. split; auto. now apply uint_string_inj.
Qed.
Lemma numbered_decimal a i : (a ++ "_" ++ decimal i)%string = numbered a i.
Proof. reflexivity. Qed.

Lemma in_model_parameters fl N_pl N_g n :
  In n (model_parameters fl N_pl N_g) <->
  exists name c i, In (name, c) (all_params fl N_pl N_g) /\ i < c /\ n = numbered name i.
Proof.
  unfold model_parameters. rewrite in_flat_map. split.
  - intros ([name c] & H & Hi). unfold expand_arguments in Hi. apply in_map_iff in Hi as (i & <- & Hi).
    apply in_seq in Hi. exists name, c, i. cbn in Hi. repeat split; auto. lia.
  - intros (name & c & i & H & Hi & ->). exists (name, c). split; auto. cbn.
    unfold expand_arguments. apply in_map_iff. exists i. split; auto. apply in_seq. lia.
Qed.

(** ** sublists *)
Inductive sub {A} : list A -> list A -> Prop :=
| sub_nil : sub [] []
| sub_skip x l l' : sub l l' -> sub l (x :: l')
| sub_keep x l l' : sub l l' -> sub (x :: l) (x :: l').
Lemma sub_refl {A} (l : list A) : sub l l.
Proof. induction l; [apply sub_nil|now apply sub_keep]. Qed.
Lemma sub_nil_l {A} (l : list A) : sub [] l.
Proof. induction l; [apply sub_nil|now apply sub_skip]. Qed.
Lemma sub_app {A} (a b c d : list A) : sub a b -> sub c d -> sub (a ++ c) (b ++ d).
Proof. induction 1; cbn; intros; [auto|apply sub_skip; auto|apply sub_keep; auto]. Qed.
Lemma sub_if {A} (b : bool) (l : list A) : sub (if b then l else []) l.
Proof. destruct b; [apply sub_refl|apply sub_nil_l]. Qed.
Lemma sub_In {A} (a b : list A) : sub a b -> forall x, In x a -> In x b.
Proof. induction 1; cbn; intuition. Qed.
Lemma sub_NoDup {A} (a b : list A) : sub a b -> NoDup b -> NoDup a.
Proof.
  induction 1; intros N; auto; inversion N; subst; auto. constructor; auto.
  intros Hx. apply (sub_In _ _ H) in Hx. contradiction.
Qed.
Lemma sub_map {A B} (f : A -> B) a b : sub a b -> sub (map f a) (map f b).
Proof. induction 1; cbn; [apply sub_nil|now apply sub_skip|now apply sub_keep]. Qed.

Definition all_flags : flags :=
  Build_flags true true true true true true true true true true true true true true true true true.
Lemma all_params_sub fl N_pl N_g : sub (all_params fl N_pl N_g) (all_params all_flags N_pl N_g).
Proof.
  unfold all_params, all_flags.
  cbn [has_beta_spin_magnitude use_spin_magnitude_mixture has_truncated_normal_spin_x
    has_truncated_normal_spin_y has_truncated_normal_spin_z use_chi_eff_mixture use_skew_normal_chi_eff
    use_truncated_normal_chi_p has_tilt use_eccentricity_mixture has_redshift has_cos_iota has_phi_12
    has_polarization_angle has_right_ascension has_sin_declination has_detection_time].
  repeat (apply sub_app; [first [apply sub_if|apply sub_refl]|]). apply sub_if.
Qed.

Fixpoint distinctb (l : list string) : bool :=
  match l with [] => true | x :: t => negb (existsb (String.eqb x) t) && distinctb t end.
Lemma distinctb_NoDup l : distinctb l = true -> NoDup l.
Proof.
  induction l as [|x l IH]; cbn; [constructor|]. rewrite andb_true_iff, negb_true_iff. intros [H1 H2].
  constructor; auto. intros H. assert (existsb (String.eqb x) l = true); [|congruence].
  apply existsb_exists. exists x. split; auto. apply String.eqb_refl.
Qed.
Definition all_names : list string := map fst (all_params all_flags 0 0).
Lemma all_names_any N_pl N_g : map fst (all_params all_flags N_pl N_g) = all_names.
Proof. reflexivity. Qed.
Lemma names_distinct fl N_pl N_g : NoDup (map fst (all_params fl N_pl N_g)).
Proof.
  apply (sub_NoDup _ (map fst (all_params all_flags N_pl N_g))); [apply sub_map, all_params_sub|].
  rewrite all_names_any. apply distinctb_NoDup. vm_compute. reflexivity.
Qed.
Lemma name_in_all fl N_pl N_g name c : In (name, c) (all_params fl N_pl N_g) -> In name all_names.
Proof.
  intros H. rewrite <- (all_names_any N_pl N_g). apply in_map_iff. exists (name, c). split; auto.
  eapply sub_In; [apply all_params_sub|apply H].
Qed.
Lemma NoDup_app_intro {A} (a b : list A) : NoDup a -> NoDup b -> (forall x, In x a -> ~ In x b) -> NoDup (a ++ b).
Proof.
  induction a as [|x a IH]; cbn; auto. intros Na Nb D. inversion Na; subst. constructor.
  - rewrite in_app_iff. intros [H|H]; [contradiction|]. apply (D x); auto.
  - apply IH; auto.
Qed.
Lemma expanded_distinct (l : list (string * nat)) : NoDup (map fst l) ->
  NoDup (flat_map (fun p => expand_arguments (fst p) (snd p)) l).
Proof.
  induction l as [|[n c] l IH]; cbn [map flat_map fst snd]; [constructor|]. intros N. inversion N; subst.
  apply NoDup_app_intro; auto.
  - unfold expand_arguments. apply FinFun.Injective_map_NoDup; [|apply seq_NoDup].
    intros i j E. apply numbered_inj2 in E. tauto.
  - intros x Hx Hy. unfold expand_arguments in Hx. apply in_map_iff in Hx as (i & <- & _).
    apply in_flat_map in Hy as ([m d] & Hm & Hy). unfold expand_arguments in Hy.
    apply in_map_iff in Hy as (j & E & _). cbn in E. apply numbered_inj2 in E as [-> _].
    apply H1. apply in_map_iff. exists (n, d). auto.
Qed.

(** ** the create_ functions *)
Section Build.
Context {V : Type}.
Variables one zero : V.
Implicit Types params : params_t V.

Definition value params (i : nat) (r : @read V) : option V :=
  let '(name, _, default) := r in match given params name i with Some v => Some v | None => default end.
Definition supplied params (i : nat) (r : @read V) : Prop :=
  let '(name, necessary, default) := r in
  necessary = true -> default = None -> given params name i <> None.

Lemma fetch_first_given params name i : fetch_first params [numbered name i; name] = given params name i.
Proof. unfold given. cbn. destruct (dget params (numbered name i)); auto. Qed.
Lemma fetch_value params i r v : fetch params i r = Some v -> v = value params i r.
Proof.
  destruct r as [[name nec] dflt]. unfold fetch, value, get_parameter.
  rewrite numbered_decimal, fetch_first_given. destruct (given params name i); [congruence|].
  destruct dflt; [congruence|]. destruct nec; congruence.
Qed.
Lemma fetch_total params i r : supplied params i r -> exists v, fetch params i r = Some v.
Proof.
  destruct r as [[name nec] dflt]. unfold fetch, supplied, get_parameter.
  rewrite numbered_decimal, fetch_first_given. destruct (given params name i); eauto.
  destruct dflt; eauto. destruct nec; eauto. intros H. now elim H.
Qed.

Lemma map_opt_values {A B} (f : A -> option B) (g : A -> B) l r :
  (forall a b, f a = Some b -> b = g a) -> map_opt f l = Some r -> r = map g l.
Proof.
  intros H. revert r. induction l as [|a l IH]; cbn; intros r.
  - now injection 1.
  - destruct (f a) as [b|] eqn:E; [|discriminate]. destruct (map_opt f l) as [r'|]; [|discriminate].
    injection 1 as <-. f_equal; auto.
Qed.
Lemma map_opt_total {A B} (f : A -> option B) l : (forall a, In a l -> exists b, f a = Some b) ->
  exists r, map_opt f l = Some r.
Proof.
  induction l as [|a l IH]; cbn; intros H; eauto.
  destruct (H a (or_introl eq_refl)) as (b & ->). destruct IH as (r & ->); eauto.
Qed.
Lemma map_opt_ext {A B} (f g : A -> option B) l : (forall a, In a l -> f a = g a) -> map_opt f l = map_opt g l.
Proof. induction l as [|a l IH]; cbn; intros H; auto. rewrite H, IH; auto. Qed.

Definition built params k (fields : list (string * list (@read V))) i : dist V :=
  mk_dist k (map (fun f => (fst f, map (value params i) (snd f))) fields).
Lemma create_value N k fields params ds : create N k fields params = Some ds ->
  ds = map (built params k fields) (seq 0 N).
Proof.
  unfold create. apply map_opt_values. intros i d.
  destruct (map_opt _ fields) as [args|] eqn:E; cbn; [|discriminate]. injection 1 as <-.
  unfold built. f_equal. revert E. apply map_opt_values. intros f b.
  destruct (map_opt (fetch params i) (snd f)) as [vs|] eqn:Ev; cbn; [|discriminate]. injection 1 as <-.
  f_equal. revert Ev. apply map_opt_values. apply fetch_value.
Qed.
Lemma create_total N k fields params :
  (forall i, i < N -> List.Forall (supplied params i) (flat_map snd fields)) ->
  exists ds, create N k fields params = Some ds.
Proof.
  intros H. unfold create. apply map_opt_total. intros i Hi. apply in_seq in Hi. specialize (H i ltac:(lia)).
  destruct (map_opt_total (fun f : string * list (@read V) => option_map (fun vs => (fst f, vs)) (map_opt (fetch params i) (snd f))) fields)
    as (r & ->); [|cbn; eauto].
  intros f Hf. destruct (map_opt_total (fetch params i) (snd f)) as (vs & ->); [|cbn; eauto].
  intros r Hr. apply fetch_total. rewrite Forall_forall in H. apply H. apply in_flat_map. eauto.
Qed.

(** ** one entry of the table *)
(** [e] builds distributions of the quantities [names] *)
Definition entry_ok (ct : string) (e : bool * string * @builder V) (names : list string) : Prop :=
  let '(_, pname, b) := e in
  exists f, forall N params ds, b N pname ct params = Some ds ->
    ds = map (f params) (seq 0 N) /\
    forall i, expected one zero params ct i (f params i) names.

Definition quantities : list (list string) :=
  [["a_1"]; ["a_2"]; ["a_1"; "a_2"]; ["spin_1x"]; ["spin_2x"]; ["spin_1y"]; ["spin_2y"]; ["spin_1z"];
   ["spin_2z"]; ["chi_eff"]; ["chi_eff"]; ["chi_p"]; ["cos_tilt_1"; "cos_tilt_2"]; ["phi_1"]; ["phi_2"];
   ["phi_12"]; ["eccentricity"]; ["mean_anomaly"]; ["redshift"]; ["ra"]; ["dec"]; ["detection_time"];
   ["cos_iota"]; ["psi"]; ["phi_orb"]].

Lemma value_need params i name : value params i (need name) = given params name i.
Proof. unfold value, need. destruct (given params name i); auto. Qed.
Lemma value_optional params i name : value params i (optional name) = given params name i.
Proof. unfold value, optional. destruct (given params name i); auto. Qed.

Lemma table_ok ct u : List.Forall2 (entry_ok ct) (info_collection one zero u) quantities.
Proof.
  unfold info_collection, quantities.
  repeat (apply Forall2_cons; [|]); try apply Forall2_nil;
  (eexists; intros N params ds E; apply create_value in E; split; [exact E|];
   intros i; unfold expected, built; cbn [d_kind d_args map fst snd];
   rewrite ?value_need, ?value_optional;
   first [ eexists; split; [reflexivity|]; reflexivity
         | split; [reflexivity|]; reflexivity ]).
Qed.

Definition used {A B} (e : bool * A * B) : bool := fst (fst e).
Definition selected (es : list (bool * string * @builder V)) (ns : list (list string)) : list string :=
  concat (map (fun p => if used (fst p) then snd p else []) (combine es ns)).

(** components [cs] of type [ct], the i-th describing the quantities [names] *)
Definition describes params ct (cs : list (list (dist V))) (N : nat) (names : list string) : Prop :=
  length cs = N /\
  forall i c, nth_error cs i = Some c ->
  exists nss, List.Forall2 (expected one zero params ct i) c nss /\ concat nss = names.

Lemma nth_error_combine {A B} (a : list A) (b : list B) i x :
  nth_error (combine a b) i = Some x <-> nth_error a i = Some (fst x) /\ nth_error b i = Some (snd x).
Proof.
  revert b i. induction a as [|y a IH]; intros b i.
  - cbn. destruct i; cbn; split; intros H; try discriminate; destruct H; discriminate.
  - destruct b as [|z b]; cbn.
    + destruct i; cbn; split; intros H; try discriminate; destruct H; discriminate.
    + destruct i; cbn.
      * destruct x; cbn. split; [now injection 1 as -> ->|]. intros [H1 H2]. congruence.
      * apply IH.
Qed.
Lemma combine_describes params ct cs N names f ns :
  describes params ct cs N names -> (forall i, expected one zero params ct i (f i) ns) ->
  describes params ct (combine_distributions cs (map f (seq 0 N))) N (names ++ ns).
Proof.
  intros [L D] E. unfold combine_distributions. split.
  - rewrite map_length, combine_length, map_length, seq_length, L. lia.
  - intros i c Hc. rewrite nth_error_map in Hc.
    destruct (nth_error (combine cs (map f (seq 0 N))) i) as [[c0 d]|] eqn:H; [|discriminate].
    cbn in Hc. injection Hc as <-. apply nth_error_combine in H as [H1 H2]. cbn [fst snd] in *.
    assert (Hi : i < N). { rewrite <- L. apply nth_error_Some. congruence. }
    rewrite nth_error_map, (nth_error_nth' _ 0) in H2 by now rewrite seq_length.
    rewrite seq_nth in H2 by auto. cbn in H2. injection H2 as <-.
    destruct (D i c0 H1) as (nss & F & C). exists (nss ++ [ns])%list. split.
    + apply Forall2_app; auto.
    + rewrite concat_app, C. cbn. now rewrite app_nil_r.
Qed.
Lemma fold_none {A} (f : option A -> bool * string * @builder V -> option A) es :
  (forall e, f None e = None) -> fold_left f es None = None.
Proof. intros H. induction es; cbn; auto. now rewrite H. Qed.
Lemma loop_describes params ct N es ns : List.Forall2 (entry_ok ct) es ns -> forall cs names r,
  describes params ct cs N names ->
  fold_left (non_mass_step N ct params) es (Some cs) = Some r ->
  describes params ct r N (names ++ selected es ns).
Proof.
  induction 1 as [|e n es ns He Hes IH]; intros cs names r D E.
  - cbn in E. injection E as <-. unfold selected. cbn. now rewrite app_nil_r.
  - destruct e as [[use pname] b]. cbn [fold_left] in E. unfold selected in *. cbn [combine map concat fst snd used].
    cbn [non_mass_step] in E. destruct use.
    + destruct (b N pname ct params) as [ds|] eqn:Eb; [|rewrite fold_none in E; [discriminate|now intros [[? ?] ?]]].
      destruct He as (f & He). destruct (He N params ds Eb) as [-> Hx].
      rewrite app_assoc. eapply IH; [|apply E]. now apply combine_describes.
    + cbn. eapply IH; eauto.
Qed.

(** the same loop, as a totality statement *)
Definition entry_total (ct : string) params (N : nat) (e : bool * string * @builder V) : Prop :=
  let '(use, pname, b) := e in use = true -> exists ds, b N pname ct params = Some ds.
Lemma loop_total params ct N es : List.Forall (entry_total ct params N) es -> forall cs,
  exists r, fold_left (non_mass_step N ct params) es (Some cs) = Some r.
Proof.
  induction 1 as [|e es He Hes IH]; intros cs; cbn [fold_left]; eauto.
  destruct e as [[use pname] b]. cbn [non_mass_step]. destruct use; [|apply IH].
  destruct (He eq_refl) as (ds & ->). apply IH.
Qed.

(** every distribution built by a used entry ends up in its component *)
Lemma combine_contains cs (ds : list (dist V)) N i c : length cs = N -> length ds = N -> nth_error cs i = Some c ->
  exists d, nth_error ds i = Some d /\ nth_error (combine_distributions cs ds) i = Some (c ++ [d])%list.
Proof.
  intros L1 L2 H. assert (Hi : i < N). { rewrite <- L1. apply nth_error_Some. congruence. }
  destruct (nth_error ds i) as [d|] eqn:E; [|apply nth_error_None in E; lia].
  exists d. split; auto. unfold combine_distributions. rewrite nth_error_map.
  assert (nth_error (combine cs ds) i = Some (c, d)) as -> by now apply nth_error_combine. reflexivity.
Qed.
Lemma combine_distributions_length cs (ds : list (dist V)) N : length cs = N -> length ds = N ->
  length (combine_distributions cs ds) = N.
Proof. intros. unfold combine_distributions. rewrite map_length, combine_length. lia. Qed.
Definition entry_length (ct : string) params (N : nat) (e : bool * string * @builder V) : Prop :=
  let '(_, pname, b) := e in forall ds, b N pname ct params = Some ds -> length ds = N.
Lemma loop_keeps params ct N es : List.Forall (entry_length ct params N) es -> forall cs r,
  length cs = N -> fold_left (non_mass_step N ct params) es (Some cs) = Some r ->
  length r = N /\
  forall i c, nth_error cs i = Some c -> exists c', nth_error r i = Some c' /\ incl c c'.
Proof.
  induction 1 as [|e es He Hes IH]; intros cs r L E; cbn [fold_left] in E.
  - injection E as <-. split; auto. intros i c H. exists c. split; auto. apply incl_refl.
  - destruct e as [[use pname] b]. cbn [non_mass_step] in E. destruct use; [|now apply IH].
    destruct (b N pname ct params) as [ds|] eqn:Eb; [|rewrite fold_none in E; [discriminate|now intros [[? ?] ?]]].
    pose proof (He ds Eb) as Ld.
    destruct (IH _ _ (combine_distributions_length cs ds N L Ld) E) as [Lr K]. split; auto.
    intros i c H. destruct (combine_contains cs ds N i c L Ld H) as (d & _ & Hc).
    destruct (K i _ Hc) as (c' & H1 & H2). exists c'. split; auto.
    intros x Hx. apply H2, in_or_app. now left.
Qed.
Lemma loop_contains params ct N es : List.Forall (entry_length ct params N) es -> forall cs r,
  length cs = N -> fold_left (non_mass_step N ct params) es (Some cs) = Some r ->
  forall pname b, In (true, pname, b) es ->
  exists ds, b N pname ct params = Some ds /\
  forall i d, nth_error ds i = Some d -> exists c, nth_error r i = Some c /\ In d c.
Proof.
  induction 1 as [|e es He Hes IH]; intros cs r L E pname b [].
  - subst e. cbn [fold_left non_mass_step] in E.
    destruct (b N pname ct params) as [ds|] eqn:Eb; [|rewrite fold_none in E; [discriminate|now intros [[? ?] ?]]].
    exists ds. split; auto. intros i d Hd. pose proof (He ds Eb) as Ld.
    assert (Hi : i < N). { rewrite <- Ld. apply nth_error_Some. congruence. }
    destruct (nth_error cs i) as [c|] eqn:Ec; [|apply nth_error_None in Ec; lia].
    destruct (combine_contains cs ds N i c L Ld Ec) as (d' & H1 & H2).
    destruct (loop_keeps params ct N es Hes _ _ (combine_distributions_length cs ds N L Ld) E) as [_ K].
    destruct (K i _ H2) as (c' & H3 & H4). exists c'. split; auto. apply H4, in_or_app. right. left. congruence.
  - destruct e as [[use p] b0]. cbn [fold_left non_mass_step] in E. destruct use; [|eapply IH; eauto].
    destruct (b0 N p ct params) as [ds|] eqn:Eb; [|rewrite fold_none in E; [discriminate|now intros [[? ?] ?]]].
    eapply IH; [|apply E|auto]. apply combine_distributions_length; auto.
Qed.
Lemma table_length ct params N u : List.Forall (entry_length ct params N) (info_collection one zero u).
Proof.
  pose proof (table_ok ct u) as T. induction T as [|e n es ns He Hes IH]; constructor; auto.
  destruct e as [[use pname] b]. destruct He as (f & He). intros ds E. destruct (He N params ds E) as [-> _].
  now rewrite map_length, seq_length.
Qed.
End Build.

(** ** the whole model *)
Section Mixture.
Context {V : Type}.
Variables one zero : V.
Implicit Types params : params_t V.
Notation model := (n_powerlaw_m_gaussian one zero).

Definition masses : list string := ["mass_1_source"; "mass_2_source"].
Definition rest (u : uses) : list string := selected (info_collection one zero u) quantities.

Lemma nth_error_map_seq {A} (f : nat -> A) N i x : nth_error (map f (seq 0 N)) i = Some x -> i < N /\ x = f i.
Proof.
  rewrite nth_error_map. destruct (Nat.lt_ge_cases i N) as [Hi|Hi].
  - rewrite (nth_error_nth' _ 0), seq_nth by (rewrite ?seq_length; auto). cbn. now injection 1 as <-.
  - assert (nth_error (seq 0 N) i = None) as -> by (apply nth_error_None; now rewrite seq_length). discriminate.
Qed.
Lemma pl_describes N u params r : build_pl_component_distributions one zero N u params = Some r ->
  describes one zero params "pl" r N (masses ++ rest u).
Proof.
  unfold build_pl_component_distributions.
  destruct (create_powerlaw_primary_mass_ratios N params) as [ps|] eqn:E; [|discriminate].
  apply create_value in E. subst ps. unfold build_non_mass_distributions.
  apply loop_describes; [apply table_ok|]. split; [now rewrite !map_length, seq_length|].
  intros i c. rewrite map_map. intros H. apply nth_error_map_seq in H as [Hi ->].
  exists [masses]. split; [|reflexivity]. constructor; [|constructor].
  unfold expected, built. cbn [d_kind d_args map fst snd]. rewrite !value_need. auto.
Qed.
Lemma g_describes N u params r : build_g_component_distributions one zero N u params = Some r ->
  describes one zero params "g" r N (masses ++ rest u).
Proof.
  unfold build_g_component_distributions.
  destruct (create_truncated_normal_distributions N "m1" "g" params) as [m1|] eqn:E1; [|discriminate].
  destruct (create_truncated_normal_distributions N "m2" "g" params) as [m2|] eqn:E2; [|discriminate].
  apply create_value in E1. apply create_value in E2. subst m1 m2. unfold build_non_mass_distributions.
  apply loop_describes; [apply table_ok|].
  split; [now rewrite map_length, combine_length, !map_length, seq_length, Nat.min_id|].
  intros i c. rewrite nth_error_map. destruct (nth_error (combine _ _) i) as [[d1 d2]|] eqn:H; [|discriminate].
  apply nth_error_combine in H as [H1 H2]. cbn [fst snd] in *.
  apply nth_error_map_seq in H1 as [Hi ->]. apply nth_error_map_seq in H2 as [_ ->]. cbn. injection 1 as <-.
  exists [["mass_1_source"]; ["mass_2_source"]]. split; [|reflexivity].
  constructor; [|constructor; [|constructor]]; unfold expected, built; cbn [d_kind d_args map fst snd];
  rewrite !value_need, !value_optional; eexists; (split; [reflexivity|]); reflexivity.
Qed.

Definition rates_of params N := map_opt (fun i => match dget params ("log_rate_" ++ decimal i)%string with Some v => v | None => None end) (seq 0 N).
Lemma model_inv N_pl N_g u params m : model N_pl N_g u params = Some m ->
  0 < N_pl + N_g /\ rates_of params (N_pl + N_g) = Some (log_rates m) /\
  exists ps gs, components m = (ps ++ gs)%list
  /\ (if 0 <? N_pl then build_pl_component_distributions one zero N_pl u params = Some ps else ps = [])
  /\ (if 0 <? N_g then build_g_component_distributions one zero N_g u params = Some gs else gs = []).
Proof.
  unfold n_powerlaw_m_gaussian. fold (rates_of params (N_pl + N_g)).
  destruct N_pl as [|a], N_g as [|b]; cbn [Nat.ltb Nat.leb Nat.eqb andb negb].
  - discriminate.
  - destruct (build_g_component_distributions one zero (S b) u params) as [gs|]; [|discriminate].
    destruct (rates_of params _) as [rs|]; [|discriminate]. injection 1 as <-.
    split; [lia|]. split; auto. exists [], gs. auto.
  - destruct (build_pl_component_distributions one zero (S a) u params) as [ps|]; [|discriminate].
    destruct (rates_of params _) as [rs|]; [|discriminate]. injection 1 as <-.
    split; [lia|]. split; auto. exists ps, []. rewrite app_nil_r. auto.
  - destruct (build_pl_component_distributions one zero (S a) u params) as [ps|]; [|discriminate].
    destruct (build_g_component_distributions one zero (S b) u params) as [gs|]; [|discriminate].
    destruct (rates_of params _) as [rs|]; [|discriminate]. injection 1 as <-.
    split; [lia|]. split; auto. exists ps, gs. auto.
Qed.
Lemma describes_nil params ct names : describes one zero params ct [] 0 names.
Proof. split; auto. intros [|i] c; discriminate. Qed.
Lemma rates_nth params N rs : rates_of params N = Some rs ->
  length rs = N /\ forall i, i < N -> dget params (numbered "log_rate" i) = Some (nth_error rs i).
Proof.
  intros E. unfold rates_of in E. pose proof (map_opt_length _ _ _ E) as L. rewrite seq_length in L.
  split; auto. intros i Hi.
  assert (H : forall k n rs i, map_opt (fun i => match dget params ("log_rate_" ++ decimal i)%string with Some v => v | None => None end) (seq k n) = Some rs ->
          i < n -> dget params (numbered "log_rate" (k + i)) = Some (nth_error rs i)).
  { clear. intros k n. revert k. induction n as [|n IH]; intros k rs i E Hi; [lia|]. cbn [seq map_opt] in E.
    destruct (dget params ("log_rate_" ++ decimal k)%string) as [[v|]|] eqn:Ek; try discriminate.
    destruct (map_opt _ (seq (S k) n)) as [r|] eqn:Er; [|discriminate]. injection E as <-.
    destruct i as [|i]; cbn [nth_error].
    - rewrite Nat.add_0_r. exact Ek.
    - rewrite <- Nat.add_succ_comm. apply IH; auto. lia. }
  apply (H 0 N); auto.
Qed.

Lemma model_components N_pl N_g u params m : model N_pl N_g u params = Some m ->
  length (components m) = N_pl + N_g /\ length (log_rates m) = N_pl + N_g /\
  forall k c, nth_error (components m) k = Some c ->
  dget params (numbered "log_rate" k) = Some (nth_error (log_rates m) k) /\
  exists nss,
    List.Forall2 (expected one zero params (component_type N_pl k) (component_number N_pl k)) c nss
    /\ concat nss = (masses ++ rest u)%list.
Proof.
  intros E. destruct (model_inv _ _ _ _ _ E) as (Hp & R & ps & gs & C & P & G).
  assert (DP : describes one zero params "pl" ps N_pl (masses ++ rest u)).
  { destruct (Nat.ltb_spec 0 N_pl); [now apply pl_describes|]. subst ps. replace N_pl with 0 by lia. apply describes_nil. }
  assert (DG : describes one zero params "g" gs N_g (masses ++ rest u)).
  { destruct (Nat.ltb_spec 0 N_g); [now apply g_describes|]. subst gs. replace N_g with 0 by lia. apply describes_nil. }
  destruct DP as [LP DP], DG as [LG DG]. destruct (rates_nth _ _ _ R) as [LR HR].
  rewrite C, app_length, LP, LG. repeat split; auto.
  - apply HR. rewrite <- LP, <- LG, <- app_length. apply nth_error_Some. congruence.
  - unfold component_type, component_number. destruct (Nat.ltb_spec k N_pl) as [Hk|Hk].
    + rewrite nth_error_app1 in H by lia. now apply DP.
    + rewrite nth_error_app2 in H by lia. rewrite LP in H. now apply DG.
Qed.

Lemma expected_dim params ct i d names : expected one zero params ct i d names -> length names = event_dim (d_kind d).
Proof.
  unfold expected. destruct (d_kind d); cbn [event_dim];
  try (intros H; exact (False_ind _ H)); try (intros (q & -> & _); reflexivity); intros [-> _]; reflexivity.
Qed.
Lemma expected_dimension params ct i c nss : List.Forall2 (expected one zero params ct i) c nss ->
  dimension c = length (concat nss).
Proof.
  unfold dimension. induction 1 as [|d ns c nss H _ IH]; cbn; auto. unfold list_sum in *. cbn.
  rewrite IH, app_length. now rewrite (expected_dim _ _ _ _ _ H).
Qed.

Lemma if_pair {A} (b : bool) (x y : A) l :
  ((if b then [x] else []) ++ (if b then [y] else []) ++ l = (if b then [x; y] else []) ++ l)%list.
Proof. destruct b; reflexivity. Qed.
Lemma rest_shape fl : rest (constants fl)
  = ((if has_beta_spin_magnitude fl then ["a_1"; "a_2"] else [])
     ++ (if use_spin_magnitude_mixture fl then ["a_1"; "a_2"] else [])
     ++ (if has_truncated_normal_spin_x fl then ["spin_1x"; "spin_2x"] else [])
     ++ (if has_truncated_normal_spin_y fl then ["spin_1y"; "spin_2y"] else [])
     ++ (if has_truncated_normal_spin_z fl then ["spin_1z"; "spin_2z"] else [])
     ++ (if use_chi_eff_mixture fl then ["chi_eff"] else [])
     ++ (if use_skew_normal_chi_eff fl then ["chi_eff"] else [])
     ++ (if use_truncated_normal_chi_p fl then ["chi_p"] else [])
     ++ (if has_tilt fl then ["cos_tilt_1"; "cos_tilt_2"] else [])
     ++ (if has_phi_12 fl then ["phi_12"] else [])
     ++ (if use_eccentricity_mixture fl then ["eccentricity"] else [])
     ++ (if has_redshift fl then ["redshift"] else [])
     ++ (if has_right_ascension fl then ["ra"] else [])
     ++ (if has_sin_declination fl then ["dec"] else [])
     ++ (if has_detection_time fl then ["detection_time"] else [])
     ++ (if has_cos_iota fl then ["cos_iota"] else [])
     ++ (if has_polarization_angle fl then ["psi"] else []))%list.
Proof.
  unfold rest, selected, info_collection, constants, quantities.
  cbn [combine map concat used fst snd u_beta_spin_magnitude u_spin_magnitude_mixture
    u_truncated_normal_spin_x u_truncated_normal_spin_y u_truncated_normal_spin_z u_chi_eff_mixture
    u_skew_normal_chi_eff u_truncated_normal_chi_p u_tilt u_eccentricity_mixture u_redshift u_cos_iota
    u_phi_12 u_polarization_angle u_right_ascension u_sin_declination u_detection_time u_phi_1 u_phi_2
    u_phi_orb u_mean_anomaly].
  rewrite !if_pair. cbn [app]. now rewrite app_nil_r.
Qed.
Lemma compatible_parameters fl : compatible fl -> (masses ++ rest (constants fl))%list = parameters fl.
Proof.
  intros [H1 H2]. rewrite rest_shape. unfold parameters, masses.
  destruct (has_beta_spin_magnitude fl), (use_spin_magnitude_mixture fl); try discriminate;
  destruct (use_chi_eff_mixture fl), (use_skew_normal_chi_eff fl); try discriminate; reflexivity.
Qed.
Lemma parameters_count fl : length (masses ++ rest (constants fl))%list = length (parameters fl)
    + (if has_beta_spin_magnitude fl && use_spin_magnitude_mixture fl then 2 else 0)
    + (if use_chi_eff_mixture fl && use_skew_normal_chi_eff fl then 1 else 0).
Proof.
  rewrite rest_shape. unfold parameters, masses. rewrite !app_length.
  destruct (has_beta_spin_magnitude fl), (use_spin_magnitude_mixture fl),
    (use_chi_eff_mixture fl), (use_skew_normal_chi_eff fl); cbn [orb andb length]; lia.
Qed.

(** ** totality *)
Section Total.
Variables (fl : flags) (N_pl N_g : nat).
Variable params : params_t V.
Hypothesis declared : forall n, In n (model_parameters fl N_pl N_g) -> exists v, dget params n = Some (Some v).

Lemma declared_given name c i : In (name, c) (all_params fl N_pl N_g) -> i < c -> given params name i <> None.
Proof.
  intros H Hi. destruct (declared (numbered name i)) as (v & E).
  - apply in_model_parameters. eauto 6.
  - unfold given. rewrite E. discriminate.
Qed.
End Total.
End Mixture.

Inductive tag := TP | TG | TB.
Definition count (N_pl N_g : nat) (t : tag) : nat := match t with TP => N_pl | TG => N_g | TB => N_pl + N_g end.
Definition blocks : list ((flags -> bool) * list (string * tag)) :=
  [   (fun _ => true,
    [("log_rate", TB); ("alpha_pl", TP); ("beta_pl", TP); ("m1_loc_g", TG);
     ("m2_loc_g", TG); ("m1_scale_g", TG); ("m2_scale_g", TG); ("m1_low_g", TG);
     ("m2_low_g", TG); ("m1_high_g", TG); ("m2_high_g", TG); ("mmax_pl", TP);
     ("mmin_pl", TP)]);
   (use_spin_magnitude_mixture,
    [("a_zeta_g", TG); ("a_zeta_pl", TP); ("a_1_comp1_high_g", TG);
     ("a_1_comp1_high_pl", TP); ("a_1_comp1_loc_g", TG); ("a_1_comp1_loc_pl", TP);
     ("a_1_comp1_low_g", TG); ("a_1_comp1_low_pl", TP); ("a_1_comp1_scale_g", TG);
     ("a_1_comp1_scale_pl", TP); ("a_1_comp2_high_g", TG); ("a_1_comp2_high_pl", TP);
     ("a_1_comp2_loc_g", TG); ("a_1_comp2_loc_pl", TP); ("a_1_comp2_low_g", TG);
     ("a_1_comp2_low_pl", TP); ("a_1_comp2_scale_g", TG); ("a_1_comp2_scale_pl", TP);
     ("a_2_comp1_high_g", TG); ("a_2_comp1_high_pl", TP); ("a_2_comp1_loc_g", TG);
     ("a_2_comp1_loc_pl", TP); ("a_2_comp1_low_g", TG); ("a_2_comp1_low_pl", TP);
     ("a_2_comp1_scale_g", TG); ("a_2_comp1_scale_pl", TP); ("a_2_comp2_high_g", TG);
     ("a_2_comp2_high_pl", TP); ("a_2_comp2_loc_g", TG); ("a_2_comp2_loc_pl", TP);
     ("a_2_comp2_low_g", TG); ("a_2_comp2_low_pl", TP); ("a_2_comp2_scale_g", TG);
     ("a_2_comp2_scale_pl", TP)]);
   (has_beta_spin_magnitude,
    [("a_1_mean_g", TG); ("a_1_mean_pl", TP); ("a_1_variance_g", TG);
     ("a_1_variance_pl", TP); ("a_2_mean_g", TG); ("a_2_mean_pl", TP);
     ("a_2_variance_g", TG); ("a_2_variance_pl", TP)]);
   (has_truncated_normal_spin_x,
    [("spin_1x_high_g", TG); ("spin_1x_high_pl", TP); ("spin_1x_loc_g", TG);
     ("spin_1x_loc_pl", TP); ("spin_1x_low_g", TG); ("spin_1x_low_pl", TP);
     ("spin_1x_scale_g", TG); ("spin_1x_scale_pl", TP); ("spin_2x_high_g", TG);
     ("spin_2x_high_pl", TP); ("spin_2x_loc_g", TG); ("spin_2x_loc_pl", TP);
     ("spin_2x_low_g", TG); ("spin_2x_low_pl", TP); ("spin_2x_scale_g", TG);
     ("spin_2x_scale_pl", TP)]);
   (has_truncated_normal_spin_y,
    [("spin_1y_high_g", TG); ("spin_1y_high_pl", TP); ("spin_1y_loc_g", TG);
     ("spin_1y_loc_pl", TP); ("spin_1y_low_g", TG); ("spin_1y_low_pl", TP);
     ("spin_1y_scale_g", TG); ("spin_1y_scale_pl", TP); ("spin_2y_high_g", TG);
     ("spin_2y_high_pl", TP); ("spin_2y_loc_g", TG); ("spin_2y_loc_pl", TP);
     ("spin_2y_low_g", TG); ("spin_2y_low_pl", TP); ("spin_2y_scale_g", TG);
     ("spin_2y_scale_pl", TP)]);
   (has_truncated_normal_spin_z,
    [("spin_1z_high_g", TG); ("spin_1z_high_pl", TP); ("spin_1z_loc_g", TG);
     ("spin_1z_loc_pl", TP); ("spin_1z_low_g", TG); ("spin_1z_low_pl", TP);
     ("spin_1z_scale_g", TG); ("spin_1z_scale_pl", TP); ("spin_2z_high_g", TG);
     ("spin_2z_high_pl", TP); ("spin_2z_loc_g", TG); ("spin_2z_loc_pl", TP);
     ("spin_2z_low_g", TG); ("spin_2z_low_pl", TP); ("spin_2z_scale_g", TG);
     ("spin_2z_scale_pl", TP)]);
   (use_chi_eff_mixture,
    [("chi_eff_comp1_high_g", TG); ("chi_eff_comp1_high_pl", TP);
     ("chi_eff_comp1_loc_g", TG); ("chi_eff_comp1_loc_pl", TP);
     ("chi_eff_comp1_low_g", TG); ("chi_eff_comp1_low_pl", TP);
     ("chi_eff_comp1_scale_g", TG); ("chi_eff_comp1_scale_pl", TP);
     ("chi_eff_comp2_high_g", TG); ("chi_eff_comp2_high_pl", TP);
     ("chi_eff_comp2_loc_g", TG); ("chi_eff_comp2_loc_pl", TP);
     ("chi_eff_comp2_low_g", TG); ("chi_eff_comp2_low_pl", TP);
     ("chi_eff_comp2_scale_g", TG); ("chi_eff_comp2_scale_pl", TP);
     ("chi_eff_zeta_g", TG); ("chi_eff_zeta_pl", TP)]);
   (use_skew_normal_chi_eff,
    [("chi_eff_epsilon_g", TG); ("chi_eff_epsilon_pl", TP); ("chi_eff_loc_g", TG);
     ("chi_eff_loc_pl", TP); ("chi_eff_scale_g", TG); ("chi_eff_scale_pl", TP)]);
   (use_truncated_normal_chi_p,
    [("chi_p_high_g", TG); ("chi_p_high_pl", TP); ("chi_p_loc_g", TG);
     ("chi_p_loc_pl", TP); ("chi_p_low_g", TG); ("chi_p_low_pl", TP);
     ("chi_p_scale_g", TG); ("chi_p_scale_pl", TP)]);
   (has_tilt,
    [("cos_tilt_zeta_g", TG); ("cos_tilt_zeta_pl", TP); ("cos_tilt_1_scale_g", TG);
     ("cos_tilt_1_scale_pl", TP); ("cos_tilt_2_scale_g", TG);
     ("cos_tilt_2_scale_pl", TP)]);
   (has_phi_12,
    [("phi_12_high_g", TG); ("phi_12_high_pl", TP); ("phi_12_loc_g", TG);
     ("phi_12_loc_pl", TP); ("phi_12_low_g", TG); ("phi_12_low_pl", TP);
     ("phi_12_scale_g", TG); ("phi_12_scale_pl", TP)]);
   (use_eccentricity_mixture,
    [("eccentricity_comp1_high_g", TG); ("eccentricity_comp1_high_pl", TP);
     ("eccentricity_comp1_loc_g", TG); ("eccentricity_comp1_loc_pl", TP);
     ("eccentricity_comp1_low_g", TG); ("eccentricity_comp1_low_pl", TP);
     ("eccentricity_comp1_scale_g", TG); ("eccentricity_comp1_scale_pl", TP);
     ("eccentricity_comp2_high_g", TG); ("eccentricity_comp2_high_pl", TP);
     ("eccentricity_comp2_loc_g", TG); ("eccentricity_comp2_loc_pl", TP);
     ("eccentricity_comp2_low_g", TG); ("eccentricity_comp2_low_pl", TP);
     ("eccentricity_comp2_scale_g", TG); ("eccentricity_comp2_scale_pl", TP);
     ("eccentricity_zeta_g", TG); ("eccentricity_zeta_pl", TP)]);
   (has_redshift,
    [("redshift_kappa_g", TG); ("redshift_kappa_pl", TP); ("redshift_z_max_g", TG);
     ("redshift_z_max_pl", TP)]);
   (has_right_ascension,
    [("ra_high_g", TG); ("ra_high_pl", TP); ("ra_loc_g", TG); ("ra_loc_pl", TP);
     ("ra_low_g", TG); ("ra_low_pl", TP); ("ra_scale_g", TG); ("ra_scale_pl", TP)]);
   (has_sin_declination,
    [("dec_high_g", TG); ("dec_high_pl", TP); ("dec_loc_g", TG); ("dec_loc_pl", TP);
     ("dec_low_g", TG); ("dec_low_pl", TP); ("dec_scale_g", TG); ("dec_scale_pl", TP)]);
   (has_detection_time,
    [("detection_time_high_g", TG); ("detection_time_high_pl", TP);
     ("detection_time_low_g", TG); ("detection_time_low_pl", TP)]);
   (has_cos_iota,
    [("cos_iota_high_g", TG); ("cos_iota_high_pl", TP); ("cos_iota_loc_g", TG);
     ("cos_iota_loc_pl", TP); ("cos_iota_low_g", TG); ("cos_iota_low_pl", TP);
     ("cos_iota_scale_g", TG); ("cos_iota_scale_pl", TP)]);
   (has_polarization_angle,
    [("psi_high_g", TG); ("psi_high_pl", TP); ("psi_loc_g", TG); ("psi_loc_pl", TP);
     ("psi_low_g", TG); ("psi_low_pl", TP); ("psi_scale_g", TG); ("psi_scale_pl", TP)])].
Lemma all_params_blocks fl N_pl N_g : all_params fl N_pl N_g
  = flat_map (fun k : (flags -> bool) * list (string * tag) => if fst k fl then map (fun p => (fst p, count N_pl N_g (snd p))) (snd k) else []) blocks.
Proof.
  unfold all_params, blocks. cbn [flat_map map fst snd count]. now rewrite app_nil_r.
Qed.
Definition tag_eqb (a b : tag) : bool := match a, b with TP, TP | TG, TG | TB, TB => true | _, _ => false end.
Definition memb (x : string * tag) (l : list (string * tag)) : bool :=
  existsb (fun y => String.eqb (fst x) (fst y) && tag_eqb (snd x) (snd y)) l.
Lemma memb_In x l : memb x l = true -> In x l.
Proof.
  unfold memb. rewrite existsb_exists. intros ([n t] & H & E). destruct x as [n' t']. cbn in E.
  apply andb_true_iff in E as [E1 E2]. apply String.eqb_eq in E1. subst.
  destruct t, t'; try discriminate; auto.
Qed.
Definition needed {V} (r : @read V) : bool := let '(_, nec, dflt) := r in nec && match dflt with Some _ => false | None => true end.
Definition all_declared {V} (k : (flags -> bool) * list (string * tag)) (t : tag) (rs : list (@read V)) : bool :=
  forallb (fun r => negb (needed r) || memb (fst (fst r), t) (snd k)) rs.
Lemma block_supplied {V} fl N_pl N_g (params : params_t V) n k t rs i :
  (forall n, In n (model_parameters fl N_pl N_g) -> exists v, dget params n = Some (Some v)) ->
  nth_error blocks n = Some k -> fst k fl = true -> all_declared k t rs = true ->
  i < count N_pl N_g t -> List.Forall (supplied params i) rs.
Proof.
  intros D Hk Hf Ha Hi. apply Forall_forall. intros [[name nec] dflt] Hr.
  unfold all_declared in Ha. rewrite forallb_forall in Ha. specialize (Ha _ Hr). cbn in Ha.
  intros -> ->. cbn in Ha. apply memb_In in Ha.
  apply (declared_given fl N_pl N_g params D name (count N_pl N_g t)); auto.
  rewrite all_params_blocks. apply in_flat_map. exists k. split; [eapply nth_error_In; eauto|].
  rewrite Hf. apply in_map_iff. exists (name, t). auto.
Qed.

Ltac in_list := repeat (first [left; reflexivity|right]).
(** the hyper-parameters read are those of block [n] *)
Ltac supply fl N_pl N_g D H t n :=
  apply create_total; intros i Hi;
  refine (block_supplied fl N_pl N_g _ n _ t _ i D eq_refl H _ Hi); vm_compute; reflexivity.
Ltac supply_any fl N_pl N_g D H t :=
  first [ supply fl N_pl N_g D H t 1 | supply fl N_pl N_g D H t 2 | supply fl N_pl N_g D H t 3
        | supply fl N_pl N_g D H t 4 | supply fl N_pl N_g D H t 5 | supply fl N_pl N_g D H t 6
        | supply fl N_pl N_g D H t 7 | supply fl N_pl N_g D H t 8 | supply fl N_pl N_g D H t 9
        | supply fl N_pl N_g D H t 10 | supply fl N_pl N_g D H t 11 | supply fl N_pl N_g D H t 12
        | supply fl N_pl N_g D H t 13 | supply fl N_pl N_g D H t 14 | supply fl N_pl N_g D H t 15
        | supply fl N_pl N_g D H t 16 | supply fl N_pl N_g D H t 17 ].

Section Mixture2.
Context {V : Type}.
Variables one zero : V.
Notation model := (n_powerlaw_m_gaussian one zero).

Lemma entries_total_pl fl N_pl N_g (params : params_t V) :
  (forall n, In n (model_parameters fl N_pl N_g) -> exists v, dget params n = Some (Some v)) ->
  List.Forall (entry_total "pl" params N_pl) (info_collection one zero (constants fl)).
Proof.
  intros D. unfold info_collection;
  repeat (apply Forall_cons; [|]); try apply Forall_nil;
  unfold entry_total, constants;
  cbn [u_beta_spin_magnitude u_spin_magnitude_mixture
    u_truncated_normal_spin_x u_truncated_normal_spin_y u_truncated_normal_spin_z u_chi_eff_mixture
    u_skew_normal_chi_eff u_truncated_normal_chi_p u_tilt u_eccentricity_mixture u_redshift u_cos_iota
    u_phi_12 u_polarization_angle u_right_ascension u_sin_declination u_detection_time u_phi_1 u_phi_2
    u_phi_orb u_mean_anomaly]; intros H; try discriminate; supply_any fl N_pl N_g D H TP.
Qed.
Lemma entries_total_g fl N_pl N_g (params : params_t V) :
  (forall n, In n (model_parameters fl N_pl N_g) -> exists v, dget params n = Some (Some v)) ->
  List.Forall (entry_total "g" params N_g) (info_collection one zero (constants fl)).
Proof.
  intros D. unfold info_collection;
  repeat (apply Forall_cons; [|]); try apply Forall_nil;
  unfold entry_total, constants;
  cbn [u_beta_spin_magnitude u_spin_magnitude_mixture
    u_truncated_normal_spin_x u_truncated_normal_spin_y u_truncated_normal_spin_z u_chi_eff_mixture
    u_skew_normal_chi_eff u_truncated_normal_chi_p u_tilt u_eccentricity_mixture u_redshift u_cos_iota
    u_phi_12 u_polarization_angle u_right_ascension u_sin_declination u_detection_time u_phi_1 u_phi_2
    u_phi_orb u_mean_anomaly]; intros H; try discriminate; supply_any fl N_pl N_g D H TG.
Qed.
Lemma model_total fl N_pl N_g (params : params_t V) : 0 < N_pl + N_g ->
  (forall n, In n (model_parameters fl N_pl N_g) -> exists v, dget params n = Some (Some v)) ->
  exists m, model N_pl N_g (constants fl) params = Some m.
Proof.
  intros Hp D. pose proof (entries_total_pl fl N_pl N_g params D) as TP'. pose proof (entries_total_g fl N_pl N_g params D) as TG'.
  assert (P : exists ps, build_pl_component_distributions one zero N_pl (constants fl) params = Some ps).
  { unfold build_pl_component_distributions.
    assert (exists ps, create_powerlaw_primary_mass_ratios N_pl params = Some ps) as (ps & ->)
      by (supply fl N_pl N_g D (eq_refl true) TP 0).
    now apply loop_total. }
  assert (G : exists gs, build_g_component_distributions one zero N_g (constants fl) params = Some gs).
  { unfold build_g_component_distributions.
    assert (exists ps, create_truncated_normal_distributions N_g "m1" "g" params = Some ps) as (m1 & ->)
      by (supply fl N_pl N_g D (eq_refl true) TG 0).
    assert (exists ps, create_truncated_normal_distributions N_g "m2" "g" params = Some ps) as (m2 & ->)
      by (supply fl N_pl N_g D (eq_refl true) TG 0).
    now apply loop_total. }
  assert (R : exists rs, rates_of params (N_pl + N_g) = Some rs).
  { apply map_opt_total. intros i Hi. apply in_seq in Hi.
    destruct (D (numbered "log_rate" i)) as (v & E).
    - apply in_model_parameters. exists "log_rate", (N_pl + N_g), i. split; [unfold all_params; apply in_or_app; left; left; reflexivity|].
      split; [lia|reflexivity].
    - exists v. change ("log_rate_" ++ decimal i)%string with (numbered "log_rate" i). now rewrite E. }
  destruct P as (ps & P), G as (gs & G), R as (rs & R). unfold n_powerlaw_m_gaussian.
  fold (rates_of params (N_pl + N_g)). rewrite P, G, R.
  destruct N_pl, N_g; cbn [Nat.ltb Nat.leb Nat.eqb andb negb]; eauto. lia.
Qed.
Lemma model_empty u (params : params_t V) : model 0 0 u params = None.
Proof. reflexivity. Qed.
End Mixture2.

(** ** values that reach the model *)
Section Reach.
Context {V : Type}.
Variables one zero : V.
Notation model := (n_powerlaw_m_gaussian one zero).
Variables (N_pl N_g : nat) (u : uses) (params : params_t V) (m : mixture V).
Hypothesis E : model N_pl N_g u params = Some m.

Lemma built_reaches (c : list (dist V)) k fields i name v :
  In c (components m) -> In (built params k fields i) c ->
  In name (map (fun r : @read V => fst (fst r)) (flat_map snd fields)) ->
  dget params (numbered name i) = Some (Some v) -> reaches v m.
Proof.
  intros Hc Hd Hr Hv. right. apply in_map_iff in Hr as (r & Hn & Hr). apply in_flat_map in Hr as (f & Hf & Hr).
  exists c, (built params k fields i), (fst f, map (value params i) (snd f)). repeat split; auto.
  - unfold built. cbn. apply in_map_iff. eauto.
  - cbn. apply in_map_iff. exists r. split; auto. destruct r as [[n nec] dflt]. cbn in Hn. subst n.
    unfold value, given. now rewrite Hv.
Qed.
Lemma nth_map_seq {A} (f : nat -> A) N i : i < N -> nth_error (map f (seq 0 N)) i = Some (f i).
Proof. intros Hi. rewrite nth_error_map, (nth_error_nth' _ 0), seq_nth by (rewrite ?seq_length; auto). reflexivity. Qed.

Lemma loop_reaches ct N cs r pname b k fields i :
  (forall c, In c r -> In c (components m)) -> length cs = N ->
  build_non_mass_distributions one zero N ct cs u params = Some r ->
  In (true, pname, b) (info_collection one zero u) ->
  (b : @builder V) N pname ct params = create N k fields params ->
  i < N -> exists c, In c (components m) /\ In (built params k fields i) c.
Proof.
  intros Hr L B Ht Hb Hi. unfold build_non_mass_distributions in B.
  destruct (loop_contains params ct N _ (table_length one zero ct params N u) cs r L B pname b Ht) as (ds & Eb & K).
  rewrite Hb in Eb. apply create_value in Eb. subst ds.
  destruct (K i _ (nth_map_seq _ _ _ Hi)) as (c & H1 & H2). exists c. split; auto. apply Hr.
  eapply nth_error_In; eauto.
Qed.


Lemma reach_pl pname b k fields i name v :
  In (true, pname, b) (info_collection one zero u) ->
  (b : @builder V) N_pl pname "pl" params = create N_pl k fields params ->
  In name (map (fun r : @read V => fst (fst r)) (flat_map snd fields)) ->
  i < N_pl -> dget params (numbered name i) = Some (Some v) -> reaches v m.
Proof.
  intros Ht Hb Hr Hi Hv. destruct (model_inv one zero _ _ _ _ _ E) as (_ & _ & ps & gs & C & P & _).
  destruct (Nat.ltb_spec 0 N_pl); [|lia]. unfold build_pl_component_distributions in P.
  destruct (create_powerlaw_primary_mass_ratios N_pl params) as [pls|] eqn:Ep; [|discriminate].
  apply create_value in Ep.
  assert (L : length (map (fun p : dist V => [p]) pls) = N_pl) by now rewrite map_length, Ep, map_length, seq_length.
  assert (I : forall c, In c ps -> In c (components m)) by (intros; rewrite C; apply in_or_app; now left).
  destruct (loop_reaches "pl" N_pl _ ps pname b k fields i I L P Ht Hb Hi) as (c & H1 & H2).
  eapply built_reaches; eauto.
Qed.
Lemma reach_g pname b k fields i name v :
  In (true, pname, b) (info_collection one zero u) ->
  (b : @builder V) N_g pname "g" params = create N_g k fields params ->
  In name (map (fun r : @read V => fst (fst r)) (flat_map snd fields)) ->
  i < N_g -> dget params (numbered name i) = Some (Some v) -> reaches v m.
Proof.
  intros Ht Hb Hr Hi Hv. destruct (model_inv one zero _ _ _ _ _ E) as (_ & _ & ps & gs & C & _ & G).
  destruct (Nat.ltb_spec 0 N_g); [|lia]. unfold build_g_component_distributions in G.
  destruct (create_truncated_normal_distributions N_g "m1" "g" params) as [m1|] eqn:E1; [|discriminate].
  destruct (create_truncated_normal_distributions N_g "m2" "g" params) as [m2|] eqn:E2; [|discriminate].
  apply create_value in E1. apply create_value in E2.
  assert (L : length (map (fun p : dist V * dist V => [fst p; snd p]) (combine m1 m2)) = N_g)
    by now rewrite map_length, combine_length, E1, E2, !map_length, seq_length, Nat.min_id.
  assert (I : forall c, In c gs -> In c (components m)) by (intros; rewrite C; apply in_or_app; now right).
  destruct (loop_reaches "g" N_g _ gs pname b k fields i I L G Ht Hb Hi) as (c & H1 & H2).
  eapply built_reaches; eauto.
Qed.
Lemma loop_keeps_mass ct N cs r i c0 : length cs = N ->
  build_non_mass_distributions one zero N ct cs u params = Some r -> nth_error cs i = Some c0 ->
  exists c, In c r /\ incl c0 c.
Proof.
  intros L B H. unfold build_non_mass_distributions in B.
  destruct (loop_keeps params ct N _ (table_length one zero ct params N u) cs r L B) as [_ K].
  destruct (K i c0 H) as (c & H1 & H2). exists c. split; auto. eapply nth_error_In; eauto.
Qed.
Lemma reach_mass_pl i name v : In name ["alpha_pl"; "beta_pl"; "mmin_pl"; "mmax_pl"] ->
  i < N_pl -> dget params (numbered name i) = Some (Some v) -> reaches v m.
Proof.
  intros Hn Hi Hv. destruct (model_inv one zero _ _ _ _ _ E) as (_ & _ & ps & gs & C & P & _).
  destruct (Nat.ltb_spec 0 N_pl); [|lia]. unfold build_pl_component_distributions in P.
  destruct (create_powerlaw_primary_mass_ratios N_pl params) as [pls|] eqn:Ep; [|discriminate].
  apply create_value in Ep.
  assert (L : length (map (fun p : dist V => [p]) pls) = N_pl) by now rewrite map_length, Ep, map_length, seq_length.
  destruct (loop_keeps_mass "pl" N_pl _ ps i [nth i pls (mk_dist KUniform [])] L P) as (c & H1 & H2).
  - rewrite nth_error_map. rewrite (nth_error_nth' pls (mk_dist KUniform [])); auto.
    now rewrite Ep, map_length, seq_length.
  - assert (H3 : In c (components m)) by (rewrite C; apply in_or_app; now left).
    specialize (H2 _ (or_introl eq_refl)).
    erewrite nth_error_nth in H2 by (rewrite Ep; apply nth_map_seq; apply Hi).
    cbn in Hn.
    destruct Hn as [<-|[<-|[<-|[<-|[]]]]]; (eapply built_reaches; [exact H3|exact H2| |exact Hv]);
    cbn [flat_map app snd map fst need]; in_list.
Qed.
Lemma reach_mass_g i name v q w : In q ["m1"; "m2"] -> In w ["loc"; "scale"; "low"; "high"] ->
  name = (q ++ "_" ++ w ++ "_g")%string ->
  i < N_g -> dget params (numbered name i) = Some (Some v) -> reaches v m.
Proof.
  intros Hq Hw Hn Hi Hv. destruct (model_inv one zero _ _ _ _ _ E) as (_ & _ & ps & gs & C & _ & G).
  destruct (Nat.ltb_spec 0 N_g); [|lia]. unfold build_g_component_distributions in G.
  destruct (create_truncated_normal_distributions N_g "m1" "g" params) as [m1|] eqn:E1; [|discriminate].
  destruct (create_truncated_normal_distributions N_g "m2" "g" params) as [m2|] eqn:E2; [|discriminate].
  apply create_value in E1. apply create_value in E2.
  assert (L : length (map (fun p : dist V * dist V => [fst p; snd p]) (combine m1 m2)) = N_g)
    by now rewrite map_length, combine_length, E1, E2, !map_length, seq_length, Nat.min_id.
  match type of E1 with _ = map ?f _ => pose proof (nth_map_seq f N_g i Hi) as N1 end.
  match type of E2 with _ = map ?f _ => pose proof (nth_map_seq f N_g i Hi) as N2 end.
  rewrite <- E1 in N1. rewrite <- E2 in N2.
  pose proof (f_equal (option_map (fun p : dist V * dist V => [fst p; snd p]))
    (proj2 (nth_error_combine m1 m2 i (_, _)) (conj N1 N2))) as Nc.
  rewrite <- nth_error_map in Nc. cbn [option_map] in Nc.
  destruct (loop_keeps_mass "g" N_g _ gs i _ L G Nc) as (c & H1 & H2).
  assert (H3 : In c (components m)) by (rewrite C; apply in_or_app; now right).
  cbn [fst snd] in H2. pose proof (H2 _ (or_introl eq_refl)) as I1.
  pose proof (H2 _ (or_intror (or_introl eq_refl))) as I2. subst name. cbn in Hq, Hw.
  destruct Hq as [<-|[<-|[]]]; destruct Hw as [<-|[<-|[<-|[<-|[]]]]]; cbn [append] in Hv;
  first [ eapply built_reaches; [exact H3|exact I1| |exact Hv]; cbn [flat_map app snd append map fst need optional]; solve [in_list]
        | eapply built_reaches; [exact H3|exact I2| |exact Hv]; cbn [flat_map app snd append map fst need optional]; solve [in_list] ].
Qed.
Lemma reach_rate i v : i < N_pl + N_g -> dget params (numbered "log_rate" i) = Some (Some v) -> reaches v m.
Proof.
  intros Hi Hv. left. destruct (model_inv one zero _ _ _ _ _ E) as (_ & R & _).
  destruct (rates_nth _ _ _ R) as [_ H]. specialize (H i Hi). rewrite Hv in H.
  eapply nth_error_In. injection H as H. symmetry. exact H.
Qed.
End Reach.

Ltac in_table H := unfold info_collection, constants;
  cbn [u_beta_spin_magnitude u_spin_magnitude_mixture
    u_truncated_normal_spin_x u_truncated_normal_spin_y u_truncated_normal_spin_z u_chi_eff_mixture
    u_skew_normal_chi_eff u_truncated_normal_chi_p u_tilt u_eccentricity_mixture u_redshift u_cos_iota
    u_phi_12 u_polarization_angle u_right_ascension u_sin_declination u_detection_time u_phi_1 u_phi_2
    u_phi_orb u_mean_anomaly]; rewrite H; in_list.
Ltac try_entry E T Hi Hv :=
  first [ refine (reach_pl _ _ _ _ _ _ _ E _ _ _ _ _ _ _ T eq_refl _ Hi Hv)
        | refine (reach_g _ _ _ _ _ _ _ E _ _ _ _ _ _ _ T eq_refl _ Hi Hv) ];
  cbn [flat_map app snd append map fst need optional or_else]; solve [in_list].
Ltac is_unread U := solve [ exfalso; apply U; unfold unread; cbn [flat_map app append]; in_list ].
(** [B] : membership in one block of all_params; [tac] closes one name *)
Ltac each B tac :=
  lazymatch type of B with
  | In _ (_ :: _) => destruct B as [B|B]; [injection B as <- <-; tac|each B tac]
  | In _ [] => destruct B
  end.
Ltac block B f tac :=
  let H := fresh "H" in destruct f eqn:H; [tac H|destruct B].

Section Reached.
Context {V : Type}.
Variables one zero : V.
Lemma model_reaches fl N_pl N_g (params : params_t V) m name c i v :
  n_powerlaw_m_gaussian one zero N_pl N_g (constants fl) params = Some m ->
  In (name, c) (all_params fl N_pl N_g) -> ~ In name unread -> i < c ->
  dget params (numbered name i) = Some (Some v) -> reaches v m.
Proof.
  intros E B U Hi Hv. unfold all_params in B.
  apply in_app_or in B as [B|B].
  { each B ltac:(first [ exact (reach_rate _ _ _ _ _ _ _ E _ _ Hi Hv)
      | refine (reach_mass_pl _ _ _ _ _ _ _ E _ _ _ _ Hi Hv); solve [in_list]
      | refine (reach_mass_g _ _ _ _ _ _ _ E _ _ _ "m1" "loc" _ _ _ Hi Hv); [in_list|in_list|reflexivity]
      | refine (reach_mass_g _ _ _ _ _ _ _ E _ _ _ "m2" "loc" _ _ _ Hi Hv); [in_list|in_list|reflexivity]
      | refine (reach_mass_g _ _ _ _ _ _ _ E _ _ _ "m1" "scale" _ _ _ Hi Hv); [in_list|in_list|reflexivity]
      | refine (reach_mass_g _ _ _ _ _ _ _ E _ _ _ "m2" "scale" _ _ _ Hi Hv); [in_list|in_list|reflexivity]
      | refine (reach_mass_g _ _ _ _ _ _ _ E _ _ _ "m1" "low" _ _ _ Hi Hv); [in_list|in_list|reflexivity]
      | refine (reach_mass_g _ _ _ _ _ _ _ E _ _ _ "m2" "low" _ _ _ Hi Hv); [in_list|in_list|reflexivity]
      | refine (reach_mass_g _ _ _ _ _ _ _ E _ _ _ "m1" "high" _ _ _ Hi Hv); [in_list|in_list|reflexivity]
      | refine (reach_mass_g _ _ _ _ _ _ _ E _ _ _ "m2" "high" _ _ _ Hi Hv); [in_list|in_list|reflexivity] ]). }
  apply in_app_or in B as [B|B].
  { block B (use_spin_magnitude_mixture fl)
      ltac:(fun H => let T0 := fresh "T" in assert (T0 : In (true, "a_1_a_2", (create_spin_magnitude_mixture_models one zero)) (info_collection one zero (constants fl))) by in_table H; each B ltac:(try_entry E T0 Hi Hv)). }
  apply in_app_or in B as [B|B].
  { block B (has_beta_spin_magnitude fl)
      ltac:(fun H => let T0 := fresh "T" in assert (T0 : In (true, "a_1", (@create_beta_distributions V)) (info_collection one zero (constants fl))) by in_table H; let T1 := fresh "T" in assert (T1 : In (true, "a_2", (@create_beta_distributions V)) (info_collection one zero (constants fl))) by in_table H; each B ltac:(first [ try_entry E T0 Hi Hv | try_entry E T1 Hi Hv ])). }
  apply in_app_or in B as [B|B].
  { block B (has_truncated_normal_spin_x fl)
      ltac:(fun H => let T0 := fresh "T" in assert (T0 : In (true, "spin_1x", (@create_truncated_normal_distributions V)) (info_collection one zero (constants fl))) by in_table H; let T1 := fresh "T" in assert (T1 : In (true, "spin_2x", (@create_truncated_normal_distributions V)) (info_collection one zero (constants fl))) by in_table H; each B ltac:(first [ try_entry E T0 Hi Hv | try_entry E T1 Hi Hv ])). }
  apply in_app_or in B as [B|B].
  { block B (has_truncated_normal_spin_y fl)
      ltac:(fun H => let T0 := fresh "T" in assert (T0 : In (true, "spin_1y", (@create_truncated_normal_distributions V)) (info_collection one zero (constants fl))) by in_table H; let T1 := fresh "T" in assert (T1 : In (true, "spin_2y", (@create_truncated_normal_distributions V)) (info_collection one zero (constants fl))) by in_table H; each B ltac:(first [ try_entry E T0 Hi Hv | try_entry E T1 Hi Hv ])). }
  apply in_app_or in B as [B|B].
  { block B (has_truncated_normal_spin_z fl)
      ltac:(fun H => let T0 := fresh "T" in assert (T0 : In (true, "spin_1z", (@create_truncated_normal_distributions V)) (info_collection one zero (constants fl))) by in_table H; let T1 := fresh "T" in assert (T1 : In (true, "spin_2z", (@create_truncated_normal_distributions V)) (info_collection one zero (constants fl))) by in_table H; each B ltac:(first [ try_entry E T0 Hi Hv | try_entry E T1 Hi Hv ])). }
  apply in_app_or in B as [B|B].
  { block B (use_chi_eff_mixture fl)
      ltac:(fun H => let T0 := fresh "T" in assert (T0 : In (true, "chi_eff", (@create_two_truncated_normal_mixture V)) (info_collection one zero (constants fl))) by in_table H; each B ltac:(try_entry E T0 Hi Hv)). }
  apply in_app_or in B as [B|B].
  { block B (use_skew_normal_chi_eff fl)
      ltac:(fun H => let T0 := fresh "T" in assert (T0 : In (true, "chi_eff", (@create_gwtc4_effective_spin_skew_normal_models V)) (info_collection one zero (constants fl))) by in_table H; each B ltac:(try_entry E T0 Hi Hv)). }
  apply in_app_or in B as [B|B].
  { block B (use_truncated_normal_chi_p fl)
      ltac:(fun H => let T0 := fresh "T" in assert (T0 : In (true, "chi_p", (@create_truncated_normal_distributions V)) (info_collection one zero (constants fl))) by in_table H; each B ltac:(try_entry E T0 Hi Hv)). }
  apply in_app_or in B as [B|B].
  { block B (has_tilt fl)
      ltac:(fun H => let T0 := fresh "T" in assert (T0 : In (true, "cos_tilt_1_cos_tilt_2", (@create_independent_spin_orientation_gaussian_isotropic V)) (info_collection one zero (constants fl))) by in_table H; each B ltac:(try_entry E T0 Hi Hv)). }
  apply in_app_or in B as [B|B].
  { block B (has_phi_12 fl)
      ltac:(fun H => let T0 := fresh "T" in assert (T0 : In (true, "phi_12", (@create_uniform_distributions V)) (info_collection one zero (constants fl))) by in_table H; each B ltac:(first [ is_unread U | try_entry E T0 Hi Hv ])). }
  apply in_app_or in B as [B|B].
  { block B (use_eccentricity_mixture fl)
      ltac:(fun H => let T0 := fresh "T" in assert (T0 : In (true, "eccentricity", (@create_two_truncated_normal_mixture V)) (info_collection one zero (constants fl))) by in_table H; each B ltac:(try_entry E T0 Hi Hv)). }
  apply in_app_or in B as [B|B].
  { block B (has_redshift fl)
      ltac:(fun H => let T0 := fresh "T" in assert (T0 : In (true, "redshift", (@create_powerlaw_redshift V)) (info_collection one zero (constants fl))) by in_table H; each B ltac:(try_entry E T0 Hi Hv)). }
  apply in_app_or in B as [B|B].
  { block B (has_right_ascension fl)
      ltac:(fun H => let T0 := fresh "T" in assert (T0 : In (true, "ra", (@create_uniform_distributions V)) (info_collection one zero (constants fl))) by in_table H; each B ltac:(first [ is_unread U | try_entry E T0 Hi Hv ])). }
  apply in_app_or in B as [B|B].
  { block B (has_sin_declination fl)
      ltac:(fun H => let T0 := fresh "T" in assert (T0 : In (true, "dec", (@create_uniform_distributions V)) (info_collection one zero (constants fl))) by in_table H; each B ltac:(first [ is_unread U | try_entry E T0 Hi Hv ])). }
  apply in_app_or in B as [B|B].
  { block B (has_detection_time fl)
      ltac:(fun H => let T0 := fresh "T" in assert (T0 : In (true, "detection_time", (@create_uniform_distributions V)) (info_collection one zero (constants fl))) by in_table H; each B ltac:(try_entry E T0 Hi Hv)). }
  apply in_app_or in B as [B|B].
  { block B (has_cos_iota fl)
      ltac:(fun H => let T0 := fresh "T" in assert (T0 : In (true, "cos_iota", (@create_uniform_distributions V)) (info_collection one zero (constants fl))) by in_table H; each B ltac:(first [ is_unread U | try_entry E T0 Hi Hv ])). }
  block B (has_polarization_angle fl)
      ltac:(fun H => let T0 := fresh "T" in assert (T0 : In (true, "psi", (@create_uniform_distributions V)) (info_collection one zero (constants fl))) by in_table H; each B ltac:(first [ is_unread U | try_entry E T0 Hi Hv ])).
Qed.
End Reached.

