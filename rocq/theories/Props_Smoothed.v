(** C90-C92: the two smoothed mass models (power laws, broken power laws) and their front ends. *)
From Coq Require Import String List Bool Arith Lia.
From Verif Require Import Model_X Model_Joint Model_Guru Model_Config Spec_Config Model_NPLMG Spec_NPLMG Proofs_NPLMG
  Model_Smoothed Spec_Smoothed Proofs_Smoothed.
Import ListNotations.
Open Scope string_scope.
Open Scope nat_scope.

(** ** C90 *)
(** the components are lists of distributions of consecutive groups of the declared parameters, in
    the declared order and without the last one, the mass ratio; each has the hyper-parameters given
    for that quantity, component type and component number.  The mass distribution that enters the
    normalisation is the first distribution of the component.  The scalars are those of the
    configuration, the fractions lambda_0, lambda_1, ... and their complement. *)
Theorem C90_coordinates :
  forall V (one zero minus_one : V) complement v fl N_pl N_g params m, s_compatible fl ->
  s_model one zero minus_one complement v N_pl N_g fl params = Some m ->
  length (s_components m) = N_pl + N_g /\ length (s_masses m) = N_pl + N_g
  /\ length (s_lambdas m) = N_pl + N_g
  /\ (forall n x, In (n, x) (scalar_sources v m) -> dget params n = Some (Some x))
  /\ (exists ls, s_lambdas m = (ls ++ [complement ls])%list
                 /\ forall k x, nth_error ls k = Some x -> dget params (numbered "lambda" k) = Some (Some x))
  /\ forall k c, nth_error (s_components m) k = Some c ->
       S (dimension c) = length (s_parameters fl)
       /\ (exists d, nth_error (s_masses m) k = Some d /\ hd_error c = Some d /\ d_kind d = mass_kind v N_pl k)
       /\ exists groups,
         List.Forall2 (s_expected one zero minus_one params (s_component_type v N_pl k) (component_number N_pl k)) c groups
         /\ (concat groups ++ ["mass_ratio"])%list = s_parameters fl.
Proof.
  intros V one zero minus_one complement v fl N_pl N_g params m Hc E. apply model_shape in E.
  destruct E as [Hp S (ls & L1 & L2) M C].
  assert (Ll : length ls = N_pl + N_g - 1).
  { apply Forall2_same_length in L1. unfold lambda_names in L1. now rewrite map_length, seq_length in L1. }
  split; [now rewrite C, app_length, !map_length, !seq_length|].
  split; [now rewrite M, app_length, !map_length, !seq_length|].
  split; [rewrite L2, app_length, Ll; cbn; lia|].
  split. { intros n x H. rewrite Forall_forall in S. now apply (S (n, x)). }
  split.
  { exists ls. split; auto. intros k x Hk. unfold lambda_names in L1.
    assert (G : forall n s, List.Forall2 (fun k x => dget params k = Some (Some x)) (map (fun i => numbered "lambda" i) (seq s n)) ls ->
       dget params (numbered "lambda" (s + k)) = Some (Some x)).
    { clear - Hk. revert k Hk. induction ls as [|y l IH]; intros k Hk n s F; [destruct k; discriminate|].
      destruct n as [|n]; cbn [seq map] in F; inversion F as [|? ? ? ? H1 H2]; subst. destruct k as [|k].
      - rewrite Nat.add_0_r. cbn in Hk. congruence.
      - replace (s + S k) with (S s + k) by lia. eapply IH; eauto. }
    exact (G _ _ L1). }
  intros k c Hk. rewrite C in Hk. apply nth_two in Hk as [Hk ->].
  destruct (all_expected one zero minus_one v fl params k (component_number N_pl k) Hc N_pl) as (nss & F & Hn).
  assert (Eq : build_all params (if k <? N_pl then pl_all one zero minus_one v fl else g_all one zero minus_one fl) (component_number N_pl k)
     = if k <? N_pl then build_all params (pl_all one zero minus_one v fl) k else build_all params (g_all one zero minus_one fl) (k - N_pl)).
  { unfold component_number. now destruct (k <? N_pl). }
  rewrite Eq in F. clear Eq. split; [|split].
  - rewrite (s_expected_dimension _ _ _ _ _ _ _ _ F), <- Hn, app_length. cbn. lia.
  - rewrite M, two_nth by auto. eexists. split; [reflexivity|]. unfold mass_kind.
    destruct (k <? N_pl); [destruct v|]; split; reflexivity.
  - eauto.
Qed.
Print Assumptions C90_coordinates.

Definition ex_fl : sflags :=
  {| sf_beta_spin_magnitude := true; sf_spin_magnitude_mixture := false; sf_chi_eff_mixture := false;
     sf_skew_normal_chi_eff := false; sf_truncated_normal_chi_p := false; sf_tilt := true;
     sf_eccentricity_mixture := false; sf_redshift := true |}.
(** every hyper-parameter has its own name as value *)
Definition ex_cfg v : list (string * option string) :=
  map (fun n => (n, Some n)) (s_model_parameters v ex_fl 1 1).
Example C90_nonvacuous :
  s_compatible ex_fl
  /\ s_parameters ex_fl = ["mass_1_source"; "a_1"; "a_2"; "cos_tilt_1"; "cos_tilt_2"; "redshift"; "mass_ratio"]
  /\ option_map (fun m => (s_delta_m1 m, s_delta_m2 m, s_m1min m, s_m2min m, s_lambdas m,
        map (map (@d_kind string)) (s_components m), map (fun c => nth_error c 3) (s_components m)))
       (s_model "1" "0" "-1" (fun l => String.concat "" ("1-" :: l)) O4 1 1 ex_fl (ex_cfg O4))
     = Some ("delta_m1", "delta_m2", "m1min", "m2min", ["lambda_0"; "1-lambda_0"],
             [[KBrokenPowerlaw; KBetaFromMeanVar; KBetaFromMeanVar; KMinimumTilt; KPowerlawRedshift];
              [KTruncatedNormal; KBetaFromMeanVar; KBetaFromMeanVar; KMinimumTilt; KPowerlawRedshift]],
             [Some (mk_dist KMinimumTilt
                [("zeta", [Some "cos_tilt_zeta_bpl_0"]); ("loc1", [Some "cos_tilt_1_loc_bpl_0"]);
                 ("loc2", [Some "cos_tilt_2_loc_bpl_0"]); ("scale1", [Some "cos_tilt_1_scale_bpl_0"]);
                 ("scale2", [Some "cos_tilt_2_scale_bpl_0"]); ("minimum1", [Some "cos_tilt_1_minimum_bpl_0"]);
                 ("minimum2", [Some "cos_tilt_2_minimum_bpl_0"])]);
              Some (mk_dist KMinimumTilt
                [("zeta", [Some "cos_tilt_zeta_g_0"]); ("loc1", [Some "cos_tilt_1_loc_g_0"]);
                 ("loc2", [Some "cos_tilt_2_loc_g_0"]); ("scale1", [Some "cos_tilt_1_scale_g_0"]);
                 ("scale2", [Some "cos_tilt_2_scale_g_0"]); ("minimum1", [Some "cos_tilt_1_minimum_g_0"]);
                 ("minimum2", [Some "cos_tilt_2_minimum_g_0"])])])
  /\ option_map (fun m => (s_delta_m1 m, s_delta_m2 m, s_m1min m, s_m2min m, map (@d_args string) (s_masses m)))
       (s_model "1" "0" "-1" (fun l => String.concat "" ("1-" :: l)) O3 1 1 ex_fl (ex_cfg O3))
     = Some ("delta_m", "delta_m", "mmin", "mmin",
             [[("alpha", [Some "alpha_pl_0"]); ("low", [Some "mmin_pl_0"]); ("high", [Some "mmax_pl_0"])];
              [("loc", [Some "m1_loc_g_0"]); ("scale", [Some "m1_scale_g_0"]); ("low", [Some "m1_low_g_0"]);
               ("high", [Some "m1_high_g_0"])]]).
Proof. split; [split; reflexivity|]. repeat split; vm_compute; reflexivity. Qed.

(** ** C91 *)
(** values for the declared hyper-parameters are enough, unless there is no component *)
Theorem C91_sufficient :
  forall V (one zero minus_one : V) complement v fl N_pl N_g params, 0 < N_pl + N_g ->
  (forall n, In n (s_model_parameters v fl N_pl N_g) -> exists x, dget params n = Some (Some x)) ->
  exists m, s_model one zero minus_one complement v N_pl N_g fl params = Some m.
Proof. intros. now apply model_total_s. Qed.
Print Assumptions C91_sufficient.

(** no component: MixtureGeneral raises, whatever is given *)
Theorem C91_no_component_refuted :
  forall V (one zero minus_one : V) complement v fl params,
  s_model one zero minus_one complement v 0 0 fl params = None.
Proof.
  intros V one zero minus_one complement v fl params.
  destruct (s_model one zero minus_one complement v 0 0 fl params) as [m|] eqn:E; auto.
  apply model_shape in E. destruct E as [Hp _ _ _ _]. lia.
Qed.
Print Assumptions C91_no_component_refuted.

(** the declared names are distinct, and none is the name of a constant keyword argument *)
Theorem C91_distinct :
  forall v fl N_pl N_g,
  NoDup (s_model_parameters v fl N_pl N_g)
  /\ forall n, In n (s_model_parameters v fl N_pl N_g) -> ~ In n [match v with O3 => "N_pl" | O4 => "N_bpl" end; "N_g"; "use_beta_spin_magnitude"; "use_spin_magnitude_mixture";
   "use_chi_eff_mixture"; "use_skew_normal_chi_eff"; "use_truncated_normal_chi_p"; "use_tilt";
   "use_eccentricity_mixture"; "use_redshift"]%string.
Proof.
  intros v fl N_pl N_g. split.
  - apply s_distinct.
  - apply s_no_constant.
Qed.
Print Assumptions C91_distinct.

(** every declared hyper-parameter is used *)
Theorem C91_used :
  forall V (one zero minus_one : V) complement v fl N_pl N_g params m,
  s_model one zero minus_one complement v N_pl N_g fl params = Some m ->
  forall n x, In n (s_model_parameters v fl N_pl N_g) -> dget params n = Some (Some x) -> s_reaches x m.
Proof. intros. eapply s_all_reach; eauto. Qed.
Print Assumptions C91_used.

(** and nothing else is: the model is a function of the declared hyper-parameters *)
Theorem C91_nothing_else :
  forall V (one zero minus_one : V) complement v fl N_pl N_g params params', 0 < N_pl + N_g ->
  (forall n, In n (s_model_parameters v fl N_pl N_g) -> exists x, dget params n = Some (Some x)) ->
  (forall n, In n (s_model_parameters v fl N_pl N_g) -> dget params' n = dget params n) ->
  s_model one zero minus_one complement v N_pl N_g fl params'
  = s_model one zero minus_one complement v N_pl N_g fl params.
Proof. intros. now apply only_declared. Qed.
Print Assumptions C91_nothing_else.

Example C91_nonvacuous :
  (forall n, In n (s_model_parameters O3 ex_fl 2 1) ->
     exists x, dget (map (fun n => (n, Some n)) (s_model_parameters O3 ex_fl 2 1)) n = Some (Some x))
  /\ length (s_model_parameters O3 ex_fl 2 1) = 56
  /\ s_model "1" "0" "-1" (fun _ => "rest") O3 2 1 ex_fl
       (("zeta", Some "unused") :: ("a_1_mean_pl", Some "shared") :: map (fun n => (n, Some n)) (s_model_parameters O3 ex_fl 2 1))
     = s_model "1" "0" "-1" (fun _ => "rest") O3 2 1 ex_fl (map (fun n => (n, Some n)) (s_model_parameters O3 ex_fl 2 1))
  /\ s_model "1" "0" "-1" (fun _ => "rest") O3 2 1 ex_fl (tl (map (fun n => (n, Some n)) (s_model_parameters O3 ex_fl 2 1))) = None.
Proof.
  split.
  { intros n H. exists n. induction (s_model_parameters O3 ex_fl 2 1) as [|a l IH]; [contradiction|]. cbn.
    destruct (String.eqb_spec a n) as [->|N]; auto. destruct H; [congruence|auto]. }
  repeat split; vm_compute; reflexivity.
Qed.

(** ** C92 *)
(** the check asks that the mean and variance of the primary spin be admissible for every component *)
Theorem C92_primary_checked :
  forall V (check : V -> V -> bool) v fl N_pl N_g kwargs (mean variance : nat -> V),
  sf_beta_spin_magnitude fl = true ->
  (forall k, k < N_pl + N_g ->
     dget kwargs (numbered ("a_1_mean_" ++ s_component_type v N_pl k) (component_number N_pl k)) = Some (mean k)
     /\ dget kwargs (numbered ("a_1_variance_" ++ s_component_type v N_pl k) (component_number N_pl k)) = Some (variance k)) ->
  exists f b, s_where_fns_list check v fl = Some [f] /\ f N_pl N_g kwargs = Some b
  /\ (b = true <-> forall k, k < N_pl + N_g -> check (mean k) (variance k) = true).
Proof.
  intros V check v fl N_pl N_g kwargs mean variance Hf H. unfold s_where_fns_list. rewrite Hf.
  eexists. exists (forallb (fun k => check (mean k) (variance k)) (seq 0 (N_pl + N_g))).
  split; [reflexivity|]. split.
  - unfold positive_concentration.
    assert (A : forall (f : nat -> option bool) g n, (forall i, i < n -> f i = Some (g i)) ->
      map_opt f (seq 0 n) = Some (map g (seq 0 n))).
    { intros f g n Hg. assert (forall l, (forall i, In i l -> i < n) -> map_opt f l = Some (map g l)) as X.
      { induction l as [|a l IH]; cbn [map_opt map]; intros Hl; auto.
        rewrite Hg by (apply Hl; now left). rewrite IH; auto. intros; apply Hl; now right. }
      apply X. intros i Hi. apply in_seq in Hi. lia. }
    rewrite (A _ (fun i => check (mean i) (variance i)) N_pl), (A _ (fun i => check (mean (N_pl + i)) (variance (N_pl + i))) N_g).
    + f_equal. rewrite forallb_app, seq_app, forallb_app. f_equal.
      * generalize (seq 0 N_pl). induction l; cbn; auto. now rewrite IHl.
      * assert (forall s n, forallb (fun x => x) (map (fun i => check (mean (N_pl + i)) (variance (N_pl + i))) (seq s n))
          = forallb (fun k => check (mean k) (variance k)) (seq (N_pl + s) n)) as X.
        { intros s n. revert s. induction n; intros s; cbn [seq map forallb]; auto. rewrite IHn. now rewrite Nat.add_succ_r. }
        rewrite X, Nat.add_0_r, Nat.add_0_l. reflexivity.
    + intros i Hi. destruct (H (N_pl + i)) as [H1 H2]; [lia|]. unfold s_component_type, component_number in H1, H2.
      destruct (Nat.ltb_spec (N_pl + i) N_pl); [lia|]. replace (N_pl + i - N_pl) with i in * by lia.
      change (numbered ("a_1_mean_" ++ "g") i) with ("a_1_mean_" ++ "g" ++ "_" ++ decimal i)%string in H1.
      change (numbered ("a_1_variance_" ++ "g") i) with ("a_1_variance_" ++ "g" ++ "_" ++ decimal i)%string in H2.
      rewrite H1, H2. reflexivity.
    + intros i Hi. destruct (H i) as [H1 H2]; [lia|]. unfold s_component_type, component_number in H1, H2.
      destruct (Nat.ltb_spec i N_pl); [|lia].
      destruct v;
      [change (numbered ("a_1_mean_" ++ "pl") i) with ("a_1_mean_" ++ "pl" ++ "_" ++ decimal i)%string in H1;
       change (numbered ("a_1_variance_" ++ "pl") i) with ("a_1_variance_" ++ "pl" ++ "_" ++ decimal i)%string in H2
      |change (numbered ("a_1_mean_" ++ "bpl") i) with ("a_1_mean_" ++ "bpl" ++ "_" ++ decimal i)%string in H1;
       change (numbered ("a_1_variance_" ++ "bpl") i) with ("a_1_variance_" ++ "bpl" ++ "_" ++ decimal i)%string in H2];
      rewrite H1, H2; reflexivity.
  - rewrite forallb_forall. split; intros K k Hk; apply K; [apply in_seq; lia|apply in_seq in Hk; lia].
Qed.
Print Assumptions C92_primary_checked.

(** the secondary spin is not looked at: whatever its mean and variance, the check says the same, so
    proposals with an impossible Beta distribution of the secondary spin pass *)
Theorem C92_secondary_unchecked_refuted :
  (forall V (check : V -> V -> bool) v N_pl N_g kwargs kwargs',
     (forall n, String.prefix "a_2" n = false -> dget kwargs' n = dget kwargs n) ->
     positive_concentration check v N_pl N_g kwargs' = positive_concentration check v N_pl N_g kwargs)
  /\ forall V (one zero minus_one : V) complement (check : V -> V -> bool) good_m good_v bad_m bad_v,
     check good_m good_v = true -> check bad_m bad_v = false ->
     exists fl kwargs m d,
       positive_concentration check O3 1 0 kwargs = Some true
       /\ s_model one zero minus_one complement O3 1 0 fl (map (fun p => (fst p, Some (snd p))) kwargs) = Some m
       /\ (forall n, In n (s_model_parameters O3 fl 1 0) -> exists x, dget kwargs n = Some x)
       /\ In d (concat (s_components m)) /\ d_kind d = KBetaFromMeanVar
       /\ d_args d = [("mean", [Some bad_m]); ("variance", [Some bad_v])].
Proof.
  split.
  - intros V check v N_pl N_g kwargs kwargs' A. unfold positive_concentration.
    assert (X : forall ct n, map_opt (fun i => match dget kwargs' ("a_1_mean_" ++ ct ++ "_" ++ decimal i)%string,
                              dget kwargs' ("a_1_variance_" ++ ct ++ "_" ++ decimal i)%string with
                        | Some m, Some v => Some (check m v)
                        | _, _ => None
                        end) (seq 0 n) = map_opt (fun i => match dget kwargs ("a_1_mean_" ++ ct ++ "_" ++ decimal i)%string,
                              dget kwargs ("a_1_variance_" ++ ct ++ "_" ++ decimal i)%string with
                        | Some m, Some v => Some (check m v)
                        | _, _ => None
                        end) (seq 0 n)).
    { intros ct n. apply map_opt_ext. intros i _. rewrite !A; auto. }
    now rewrite !X.
  - intros V one zero minus_one complement check gm gv bm bv Hg Hb.
    exists {| sf_beta_spin_magnitude := true; sf_spin_magnitude_mixture := false; sf_chi_eff_mixture := false;
     sf_skew_normal_chi_eff := false; sf_truncated_normal_chi_p := false; sf_tilt := false;
     sf_eccentricity_mixture := false; sf_redshift := false |}.
    exists [("beta", one); ("delta_m", one); ("log_rate", one); ("mmax", one); ("mmin", one); ("alpha_pl_0", one);
            ("mmax_pl_0", one); ("mmin_pl_0", one); ("a_1_mean_pl_0", gm); ("a_1_variance_pl_0", gv);
            ("a_2_mean_pl_0", bm); ("a_2_variance_pl_0", bv)].
    eexists. exists (mk_dist KBetaFromMeanVar [("mean", [Some bm]); ("variance", [Some bv])]).
    split; [cbn; now rewrite Hg|]. split; [reflexivity|]. split; [|cbn; auto].
    intros n H. vm_compute in H. repeat destruct H as [<-|H]; try contradiction; cbn; eauto.
Qed.
Print Assumptions C92_secondary_unchecked_refuted.

Example C92_nonvacuous :
  option_map (map (fun f => f 1 1 [("a_1_mean_pl_0", 1); ("a_1_variance_pl_0", 2); ("a_1_mean_g_0", 1); ("a_1_variance_g_0", 1)]))
    (s_where_fns_list Nat.ltb O3 ex_fl) = Some [Some false]
  /\ option_map (map (fun f => f 1 1 [("a_1_mean_bpl_0", 1); ("a_1_variance_bpl_0", 2); ("a_1_mean_g_0", 0); ("a_1_variance_g_0", 1)]))
    (s_where_fns_list Nat.ltb O4 ex_fl) = Some [Some true].
Proof. split; reflexivity. Qed.
