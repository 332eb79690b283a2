(** C25, C83-C86: the power law / Gaussian mixture and its analysis front end. *)
From Coq Require Import String List Bool Arith Lia.
From Verif Require Import Model_X Model_Joint Model_Guru Model_Config Spec_Config Model_NPLMG Spec_NPLMG Proofs_NPLMG Proofs_NPLMGUnread.
Import ListNotations.
Open Scope string_scope.
Open Scope nat_scope.

(** ** C25 *)
(** every component is a list of distributions of consecutive groups of the declared parameters, in
    the declared order, each with the hyper-parameters given for that quantity, component type and
    component number; the k-th rate is log_rate_k *)
Theorem C25_coordinates :
  forall V (one zero : V) fl N_pl N_g params m, compatible fl ->
  n_powerlaw_m_gaussian one zero N_pl N_g (constants fl) params = Some m ->
  length (components m) = N_pl + N_g /\ length (log_rates m) = N_pl + N_g /\
  forall k c, nth_error (components m) k = Some c ->
    dget params (numbered "log_rate" k) = Some (nth_error (log_rates m) k)
    /\ dimension c = length (parameters fl)
    /\ exists groups,
         List.Forall2 (expected one zero params (component_type N_pl k) (component_number N_pl k)) c groups
         /\ concat groups = parameters fl.
Proof.
  intros V one zero fl N_pl N_g params m Hc E.
  destruct (model_components _ _ _ _ _ _ _ E) as (L1 & L2 & H). split; [auto|]. split; [auto|].
  intros k c Hk. destruct (H k c Hk) as (R & nss & F & C).
  rewrite (compatible_parameters _ _ _ Hc) in C.
  split; [auto|]. split; [|eauto].
  rewrite (expected_dimension _ _ _ _ _ _ _ F), C. reflexivity.
Qed.
Print Assumptions C25_coordinates.

(** with both models of the spin magnitudes, or both of the effective spin, the events of every
    component have more coordinates than there are names *)
Theorem C25_both_alternatives_refuted :
  forall V (one zero : V) fl N_pl N_g params m,
  n_powerlaw_m_gaussian one zero N_pl N_g (constants fl) params = Some m ->
  forall c, In c (components m) ->
  dimension c = length (parameters fl)
    + (if has_beta_spin_magnitude fl && use_spin_magnitude_mixture fl then 2 else 0)
    + (if use_chi_eff_mixture fl && use_skew_normal_chi_eff fl then 1 else 0).
Proof.
  intros V one zero fl N_pl N_g params m E c Hc. apply In_nth_error in Hc as (k & Hk).
  destruct (model_components _ _ _ _ _ _ _ E) as (_ & _ & H). destruct (H k c Hk) as (_ & nss & F & C).
  rewrite (expected_dimension _ _ _ _ _ _ _ F), C. apply parameters_count.
Qed.
Print Assumptions C25_both_alternatives_refuted.

(** one power law, two Gaussians; tilts, redshift and both spins along z *)
Definition ex_flags : flags :=
  {| has_beta_spin_magnitude := false; use_spin_magnitude_mixture := false;
     has_truncated_normal_spin_x := false; has_truncated_normal_spin_y := false;
     has_truncated_normal_spin_z := true; use_chi_eff_mixture := false; use_skew_normal_chi_eff := false;
     use_truncated_normal_chi_p := false; has_tilt := true; use_eccentricity_mixture := false;
     has_redshift := true; has_cos_iota := false; has_phi_12 := false; has_polarization_angle := false;
     has_right_ascension := false; has_sin_declination := false; has_detection_time := false |}.
(** every hyper-parameter has its own name as value *)
Definition ex_params : list (string * option string) :=
  map (fun n => (n, Some n)) (model_parameters ex_flags 1 2).
Example C25_nonvacuous :
  compatible ex_flags
  /\ parameters ex_flags
     = ["mass_1_source"; "mass_2_source"; "spin_1z"; "spin_2z"; "cos_tilt_1"; "cos_tilt_2"; "redshift"]
  /\ option_map (fun m => (log_rates m, map (map (@d_kind string)) (components m),
       map (fun c => nth_error c 2) (components m)))
       (n_powerlaw_m_gaussian "1" "0" 1 2 (constants ex_flags) ex_params)
     = Some (["log_rate_0"; "log_rate_1"; "log_rate_2"],
             [[KPowerlawPrimaryMassRatio; KTruncatedNormal; KTruncatedNormal; KIndependentSpinOrientation; KPowerlawRedshift];
              [KTruncatedNormal; KTruncatedNormal; KTruncatedNormal; KTruncatedNormal; KIndependentSpinOrientation; KPowerlawRedshift];
              [KTruncatedNormal; KTruncatedNormal; KTruncatedNormal; KTruncatedNormal; KIndependentSpinOrientation; KPowerlawRedshift]],
             [Some (mk_dist KTruncatedNormal
                [("loc", [Some "spin_2z_loc_pl_0"]); ("scale", [Some "spin_2z_scale_pl_0"]);
                 ("low", [Some "spin_2z_low_pl_0"]); ("high", [Some "spin_2z_high_pl_0"])]);
              Some (mk_dist KTruncatedNormal
                [("loc", [Some "spin_1z_loc_g_0"]); ("scale", [Some "spin_1z_scale_g_0"]);
                 ("low", [Some "spin_1z_low_g_0"]); ("high", [Some "spin_1z_high_g_0"])]);
              Some (mk_dist KTruncatedNormal
                [("loc", [Some "spin_1z_loc_g_1"]); ("scale", [Some "spin_1z_scale_g_1"]);
                 ("low", [Some "spin_1z_low_g_1"]); ("high", [Some "spin_1z_high_g_1"])])]).
Proof. split; [split; reflexivity|]. split; [reflexivity|]. vm_compute. reflexivity. Qed.

(** ** C83 *)
Theorem C83_declared_suffice :
  forall V (one zero : V) fl N_pl N_g params, 0 < N_pl + N_g ->
  (forall n, In n (model_parameters fl N_pl N_g) -> exists v, dget params n = Some (Some v)) ->
  exists m, n_powerlaw_m_gaussian one zero N_pl N_g (constants fl) params = Some m.
Proof. intros. now apply model_total. Qed.
Print Assumptions C83_declared_suffice.

Theorem C83_no_component_refuted :
  forall V (one zero : V) u params, n_powerlaw_m_gaussian one zero 0 0 u params = None.
Proof. intros. apply model_empty. Qed.
Print Assumptions C83_no_component_refuted.

Example C83_nonvacuous :
  (forall n, In n (model_parameters ex_flags 1 2) -> exists v, dget ex_params n = Some (Some v))
  /\ length (model_parameters ex_flags 1 2) = 62
  (* without one of them *)
  /\ n_powerlaw_m_gaussian "1" "0" 1 2 (constants ex_flags)
       (filter (fun p => negb (String.eqb (fst p) "redshift_kappa_g_1")) ex_params) = None.
Proof.
  split; [|split; vm_compute; reflexivity]. unfold ex_params. intros n H. exists n. revert H.
  induction (model_parameters ex_flags 1 2) as [|a l IH]; [intros []|].
  cbn [map dget]. intros [->|H]; [now rewrite String.eqb_refl|].
  destruct (String.eqb_spec a n); [now subst|auto].
Qed.

(** ** C84 *)
Theorem C84_names_distinct :
  forall fl N_pl N_g, NoDup (model_parameters fl N_pl N_g).
Proof. intros. apply expanded_distinct, names_distinct. Qed.
Print Assumptions C84_names_distinct.

(** one name per component of the type the name ends in, numbered from 0; log_rate has one per component *)
Definition name_count (N_pl N_g : nat) (name : string) (n : nat) : Prop :=
  (name = "log_rate" /\ n = N_pl + N_g)
  \/ (exists b, name = b ++ "_pl" /\ n = N_pl) \/ (exists b, name = b ++ "_g" /\ n = N_g).
Theorem C84_one_name_per_component :
  forall fl N_pl N_g,
  (forall n, In n (model_parameters fl N_pl N_g) -> exists name i, n = numbered name i) /\
  forall name i, In (numbered name i) (model_parameters fl N_pl N_g) ->
  exists n, name_count N_pl N_g name n /\
    forall j, In (numbered name j) (model_parameters fl N_pl N_g) <-> j < n.
Proof.
  intros fl N_pl N_g. split.
  { intros n H. apply in_model_parameters in H as (name & c & j & _ & _ & E). eauto. }
  intros name i H. apply in_model_parameters in H as (n & c & j & H & Hj & E).
  apply numbered_inj2 in E as [<- <-]. exists c. split.
  - pose proof H as H'. rewrite all_params_blocks in H'.
    apply in_flat_map in H' as (k & Hk & H'). destruct (fst k fl) eqn:Ek; [|destruct H'].
    apply in_map_iff in H' as ([n' t] & E & Ht). cbn [fst snd] in E. injection E as -> <-.
    set (cut := fun suf s => String.eqb s (substring 0 (String.length s - String.length suf) s ++ suf)).
    assert (X : forallb (fun k : (flags -> bool) * list (string * tag) => forallb (fun p : string * tag =>
        match snd p with TB => String.eqb (fst p) "log_rate" | TP => cut "_pl" (fst p) | TG => cut "_g" (fst p) end) (snd k)) blocks = true)
      by (vm_compute; reflexivity).
    rewrite forallb_forall in X. specialize (X _ Hk). rewrite forallb_forall in X. specialize (X _ Ht).
    cbn [fst snd] in X. unfold name_count. destruct t; apply String.eqb_eq in X; cbn [count]; eauto 6.
  - intros j. rewrite in_model_parameters. split.
    + intros (n & c' & j' & H' & Hj' & E). apply numbered_inj2 in E as [<- <-].
      pose proof (names_distinct fl N_pl N_g) as D.
      assert (c' = c); [|lia]. clear - H H' D.
      induction (all_params fl N_pl N_g) as [|[a b] l IH]; [destruct H|]. cbn [map fst] in D.
      inversion D as [|? ? N D']; subst.
      destruct H as [H|H], H' as [H'|H']; auto; try congruence.
      * injection H as -> ->. elim N. apply in_map_iff. exists (name, c'). auto.
      * injection H' as -> ->. elim N. apply in_map_iff. exists (name, c). auto.
    + intros Hj'. exists name, c, j. auto.
Qed.
Print Assumptions C84_one_name_per_component.

Example C84_nonvacuous :
  length (model_parameters all_flags 3 12) = 102 * 3 + 106 * 12
  /\ In (numbered "spin_1z_loc_g" 11) (model_parameters all_flags 3 12)
  /\ ~ In (numbered "spin_1z_loc_pl" 3) (model_parameters all_flags 3 12).
Proof.
  assert (B : forall x l, existsb (String.eqb x) l = true <-> In x l).
  { intros x l. rewrite existsb_exists. split.
    - intros (y & H & E). apply String.eqb_eq in E. now subst.
    - intros H. exists x. split; auto. apply String.eqb_refl. }
  split; [vm_compute; reflexivity|]. split.
  - apply B. vm_compute. reflexivity.
  - intros H. apply B in H. vm_compute in H. discriminate.
Qed.

(** ** C85 *)
(** every declared hyper-parameter, except the listed ones, is an argument of the model *)
Theorem C85_values_reach_partial :
  forall V (one zero : V) fl N_pl N_g params m name i v,
  n_powerlaw_m_gaussian one zero N_pl N_g (constants fl) params = Some m ->
  In (numbered name i) (model_parameters fl N_pl N_g) -> ~ In name unread ->
  dget params (numbered name i) = Some (Some v) -> reaches v m.
Proof.
  intros V one zero fl N_pl N_g params m name i v E H U Hv.
  apply in_model_parameters in H as (n & c & j & H & Hj & Eq). apply numbered_inj2 in Eq as [<- <-].
  eapply model_reaches; eauto.
Qed.
Print Assumptions C85_values_reach_partial.

(** location and scale of phi_12, ra, dec, cos_iota and psi have no effect: two configurations that
    differ in nothing else give the same model *)
Theorem C85_ignored_refuted :
  forall V (one zero : V) N_pl N_g u params params',
  (forall k, (forall n j, In n unread -> k <> numbered n j) -> dget params k = dget params' k) ->
  n_powerlaw_m_gaussian one zero N_pl N_g u params = n_powerlaw_m_gaussian one zero N_pl N_g u params'.
Proof. intros. now apply model_same. Qed.
Print Assumptions C85_ignored_refuted.

Definition angle_flags : flags :=
  {| has_beta_spin_magnitude := false; use_spin_magnitude_mixture := false;
     has_truncated_normal_spin_x := false; has_truncated_normal_spin_y := false;
     has_truncated_normal_spin_z := false; use_chi_eff_mixture := false; use_skew_normal_chi_eff := false;
     use_truncated_normal_chi_p := false; has_tilt := false; use_eccentricity_mixture := false;
     has_redshift := false; has_cos_iota := true; has_phi_12 := false; has_polarization_angle := false;
     has_right_ascension := false; has_sin_declination := false; has_detection_time := false |}.
Example C85_nonvacuous :
  (* a prior must be given for these *)
  In (numbered "cos_iota_loc_pl" 0) (model_parameters angle_flags 1 0)
  /\ In "cos_iota_loc_pl" unread
  /\ n_powerlaw_m_gaussian 1 0 1 0 (constants angle_flags)
       [("log_rate_0", Some 5); ("alpha_pl_0", Some 6); ("beta_pl_0", Some 7); ("mmin_pl_0", Some 8); ("mmax_pl_0", Some 9);
        ("cos_iota_low_pl_0", Some 10); ("cos_iota_high_pl_0", Some 11); ("cos_iota_loc_pl_0", Some 12); ("cos_iota_scale_pl_0", Some 13)]
     = Some {| log_rates := [5];
               components := [[mk_dist KPowerlawPrimaryMassRatio
                                 [("alpha", [Some 6]); ("beta", [Some 7]); ("mmin", [Some 8]); ("mmax", [Some 9])];
                               mk_dist KUniform [("low", [Some 10]); ("high", [Some 11])]]] |}.
Proof. split; [vm_compute; tauto|]. split; [vm_compute; tauto|]. reflexivity. Qed.

(** ** C86 *)
(** the check is installed exactly with the Beta model of the spin magnitudes, and then it raises on
    every proposal: none of the keys it reads is a model parameter or a constant *)
Theorem C86_check_raises_refuted :
  forall V (check : V -> V -> bool) fl N_pl N_g kwargs,
  (forall k, dget kwargs k <> None -> In k (model_parameters fl N_pl N_g) \/ In k ["N_pl"; "N_g"; "use_beta_spin_magnitude"; "use_spin_magnitude_mixture"; "use_truncated_normal_spin_x";
   "use_truncated_normal_spin_y"; "use_truncated_normal_spin_z"; "use_chi_eff_mixture";
   "use_skew_normal_chi_eff"; "use_truncated_normal_chi_p"; "use_tilt"; "use_eccentricity_mixture";
   "use_redshift"; "use_cos_iota"; "use_phi_12"; "use_polarization_angle"; "use_right_ascension";
   "use_sin_declination"; "use_detection_time"]%string) ->
  (forall f, In f (where_fns_list check fl) -> f N_pl N_g kwargs = None)
  /\ (where_fns_list check fl <> [] <-> has_beta_spin_magnitude fl = true).
Proof.
  intros V check fl N_pl N_g kwargs H. unfold where_fns_list. split.
  - destruct (has_beta_spin_magnitude fl); [|intros f []]. intros f [<-|[]]. eapply check_raises; eauto.
  - destruct (has_beta_spin_magnitude fl); split; congruence.
Qed.
Print Assumptions C86_check_raises_refuted.

(** under the names the check reads it decides as intended: all pairs, of both kinds of components *)
Theorem C86_check_when_named_partial :
  forall V (check : V -> V -> bool) N_pl N_g (mean_pl var_pl mean_g var_g : nat -> nat -> V) kwargs,
  0 < N_pl + N_g ->
  (forall i j, i = 1 \/ i = 2 -> j < N_pl ->
     dget kwargs (numbered (if i =? 1 then "chi1_mean_pl" else "chi2_mean_pl") j) = Some (mean_pl i j)
     /\ dget kwargs (numbered (if i =? 1 then "chi1_variance_pl" else "chi2_variance_pl") j) = Some (var_pl i j)) ->
  (forall i j, i = 1 \/ i = 2 -> j < N_g ->
     dget kwargs (numbered (if i =? 1 then "chi1_mean_g" else "chi2_mean_g") j) = Some (mean_g i j)
     /\ dget kwargs (numbered (if i =? 1 then "chi1_variance_g" else "chi2_variance_g") j) = Some (var_g i j)) ->
  exists b, mean_variance_check check N_pl N_g kwargs = Some b /\
  (b = true <->
   (forall i j, i = 1 \/ i = 2 -> j < N_pl -> check (mean_pl i j) (var_pl i j) = true)
   /\ (forall i j, i = 1 \/ i = 2 -> j < N_g -> check (mean_g i j) (var_g i j) = true)).
Proof.
  intros V check N_pl N_g mp vp mg vg kwargs Hp HP HG.
  set (idx := fun n => flat_map (fun j => [(j, 1); (j, 2)]) (seq 0 n)).
  assert (I : forall n p, In p (idx n) <-> (snd p = 1 \/ snd p = 2) /\ fst p < n).
  { intros n [j i]. unfold idx. rewrite in_flat_map. cbn [fst snd]. split.
    - intros (x & Hx & [Hj|[Hj|[]]]); injection Hj as <- <-; apply in_seq in Hx; split; auto; lia.
    - intros [Hi Hj]. exists j. split; [apply in_seq; lia|]. destruct Hi as [->| ->]; cbn; auto. }
  assert (A : forall (f : nat * nat -> option V) (g : nat -> nat -> V) n,
     (forall p, In p (idx n) -> f p = Some (g (snd p) (fst p))) ->
     map_opt f (idx n) = Some (map (fun p => g (snd p) (fst p)) (idx n))).
  { intros f g n. induction (idx n) as [|p l IH]; cbn [map_opt map]; intros H; auto.
    rewrite H by now left. rewrite IH; auto. intros q Hq. apply H. now right. }
  assert (MP : map_opt (fun p : nat * nat => dget kwargs ("chi" ++ decimal (snd p) ++ "_mean_pl_" ++ decimal (fst p))%string) (idx N_pl)
     = Some (map (fun p => mp (snd p) (fst p)) (idx N_pl))).
  { apply A. intros [j i] H. apply I in H as [Hi Hj]. cbn [fst snd] in *.
    destruct (HP i j Hi Hj) as [E _]. destruct Hi as [->| ->]; exact E. }
  assert (VP : map_opt (fun p : nat * nat => dget kwargs ("chi" ++ decimal (snd p) ++ "_variance_pl_" ++ decimal (fst p))%string) (idx N_pl)
     = Some (map (fun p => vp (snd p) (fst p)) (idx N_pl))).
  { apply A. intros [j i] H. apply I in H as [Hi Hj]. cbn [fst snd] in *.
    destruct (HP i j Hi Hj) as [_ E]. destruct Hi as [->| ->]; exact E. }
  assert (MG : map_opt (fun p : nat * nat => dget kwargs ("chi" ++ decimal (snd p) ++ "_mean_g_" ++ decimal (fst p))%string) (idx N_g)
     = Some (map (fun p => mg (snd p) (fst p)) (idx N_g))).
  { apply A. intros [j i] H. apply I in H as [Hi Hj]. cbn [fst snd] in *.
    destruct (HG i j Hi Hj) as [E _]. destruct Hi as [->| ->]; exact E. }
  assert (VG : map_opt (fun p : nat * nat => dget kwargs ("chi" ++ decimal (snd p) ++ "_variance_g_" ++ decimal (fst p))%string) (idx N_g)
     = Some (map (fun p => vg (snd p) (fst p)) (idx N_g))).
  { apply A. intros [j i] H. apply I in H as [Hi Hj]. cbn [fst snd] in *.
    destruct (HG i j Hi Hj) as [_ E]. destruct Hi as [->| ->]; exact E. }
  assert (Z : forall (m v : nat -> nat -> V) l,
     combine (map (fun p : nat * nat => m (snd p) (fst p)) l) (map (fun p => v (snd p) (fst p)) l)
     = map (fun p => (m (snd p) (fst p), v (snd p) (fst p))) l).
  { intros m v l. induction l; cbn; auto. now rewrite IHl. }
  assert (Zapp : forall (a b c d : list V), length a = length c ->
     combine (a ++ b) (c ++ d) = (combine a c ++ combine b d)%list).
  { induction a as [|x a IH]; intros b [|y c] d L; try discriminate; auto. cbn. f_equal. apply IH. auto. }
  assert (Q : forall (m v : nat -> nat -> V) n,
     forallb (fun p => check (fst p) (snd p)) (map (fun p : nat * nat => (m (snd p) (fst p), v (snd p) (fst p))) (idx n)) = true
     <-> forall i j, i = 1 \/ i = 2 -> j < n -> check (m i j) (v i j) = true).
  { intros m v n. rewrite forallb_forall. split.
    - intros H i j Hi Hj. apply (H (m i j, v i j)). apply in_map_iff. exists (j, i). split; auto.
      apply I. auto.
    - intros H p Hp'. apply in_map_iff in Hp' as ([j i] & <- & Hp'). apply I in Hp' as [Hi Hj]. now apply H. }
  unfold mean_variance_check. fold (idx N_pl) (idx N_g). rewrite MP, VP, MG, VG.
  destruct N_pl as [|a], N_g as [|b]; cbn [Nat.ltb Nat.leb andb]; try lia;
  eexists; (split; [reflexivity|]); rewrite ?Zapp by now rewrite !map_length.
  - rewrite Z, Q. split; [intros H; split; auto; intros; lia|tauto].
  - rewrite Z, Q. split; [intros H; split; auto; intros; lia|tauto].
  - rewrite !Z, forallb_app, andb_true_iff, !Q. reflexivity.
Qed.
Print Assumptions C86_check_when_named_partial.

Example C86_nonvacuous :
  let fl := {| has_beta_spin_magnitude := true; use_spin_magnitude_mixture := false;
     has_truncated_normal_spin_x := false; has_truncated_normal_spin_y := false;
     has_truncated_normal_spin_z := false; use_chi_eff_mixture := false; use_skew_normal_chi_eff := false;
     use_truncated_normal_chi_p := false; has_tilt := false; use_eccentricity_mixture := false;
     has_redshift := false; has_cos_iota := false; has_phi_12 := false; has_polarization_angle := false;
     has_right_ascension := false; has_sin_declination := false; has_detection_time := false |} in
  let kwargs := map (fun n => (n, 1)) (model_parameters fl 1 0) in
  map fst kwargs = ["log_rate_0"; "alpha_pl_0"; "beta_pl_0"; "mmax_pl_0"; "mmin_pl_0"; "a_1_mean_pl_0"; "a_1_variance_pl_0";
                    "a_2_mean_pl_0"; "a_2_variance_pl_0"]
  /\ map (fun f => f 1 0 kwargs) (where_fns_list Nat.ltb fl) = [None]
  /\ mean_variance_check Nat.ltb 1 0
       [("chi1_mean_pl_0", 2); ("chi1_variance_pl_0", 3); ("chi2_mean_pl_0", 2); ("chi2_variance_pl_0", 2)] = Some false.
Proof. repeat split. Qed.
