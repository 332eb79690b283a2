(** Properties of the generators of synthetic events. *)
From Coq Require Import String Reals List Bool Arith Lia Lra.
From Verif Require Import Model_X Model_Joint Model_Guru Model_Config Spec_Config Proofs_Guru Proofs_Config Model_Key Model_Errors
  Spec_Errors Model_Population Spec_Population Proofs_Population Props_Population Model_NPLMG Spec_NPLMG Proofs_NPLMG Model_Genie Spec_Genie
  Proofs_Genie Proofs_GenieErrors.
Import ListNotations.
Open Scope string_scope.
Open Scope nat_scope.

Lemma file_values_eq fullmatch u N_pl N_g json :
  genie_model fullmatch u N_pl N_g json
  = n_powerlaw_m_gaussian (CNum (Fin 1%R)) (CNum (Fin 0%R)) N_pl N_g (model_uses u) (file_values fullmatch u N_pl N_g json).
Proof.
  unfold genie_model, file_values. f_equal. apply map_ext. intros [k v]. now destruct v.
Qed.
Lemma dget_values (l : list (string * cval)) n :
  dget (map (fun p => (fst p, match snd p with CNull => None | v => Some v end)) l) n
  = option_map (fun v => match v with CNull => None | v => Some v end) (dget l n).
Proof. induction l as [|[k v] l IH]; [reflexivity|]. cbn [map dget fst snd]. destruct (String.eqb k n); [now destruct v|exact IH]. Qed.

(** ** C102 *)
(** every component is a list of distributions of consecutive groups of the names that the generator
    declares, in the declared order, with the hyper-parameters of the file; the k-th rate is log_rate_k *)
Theorem C102_coordinates_partial :
  forall fullmatch u N_pl N_g json m, u_truncated_normal_chi_p u = false ->
  genie_model fullmatch u N_pl N_g json = Some m ->
  length (components m) = N_pl + N_g /\ length (log_rates m) = N_pl + N_g /\
  forall k c, nth_error (components m) k = Some c ->
    dget (file_values fullmatch u N_pl N_g json) (numbered "log_rate" k) = Some (nth_error (log_rates m) k)
    /\ dimension c = length (parameters_name u)
    /\ exists groups,
         List.Forall2 (expected (CNum (Fin 1%R)) (CNum (Fin 0%R)) (file_values fullmatch u N_pl N_g json)
                         (component_type N_pl k) (component_number N_pl k)) c groups
         /\ concat groups = parameters_name u.
Proof.
  intros fm u N_pl N_g json m Hc E. rewrite file_values_eq in E.
  destruct (model_components _ _ _ _ _ _ _ E) as (L1 & L2 & H). split; [auto|]. split; [auto|].
  intros k c Hk. destruct (H k c Hk) as (R & nss & F & C).
  rewrite names_any, names_without_chi_p in C by auto.
  split; [auto|]. split; [|eauto].
  rewrite (expected_dimension _ _ _ _ _ _ _ F), C. reflexivity.
Qed.
Print Assumptions C102_coordinates_partial.

(** with the effective precessing spin: it is declared, but no component has a distribution for it *)
Theorem C102_chi_p_refuted :
  forall fullmatch u N_pl N_g json m, u_truncated_normal_chi_p u = true ->
  genie_model fullmatch u N_pl N_g json = Some m ->
  In "chi_p" (parameters_name u) /\
  forall k c, nth_error (components m) k = Some c ->
    S (dimension c) = length (parameters_name u)
    /\ exists groups,
         List.Forall2 (expected (CNum (Fin 1%R)) (CNum (Fin 0%R)) (file_values fullmatch u N_pl N_g json)
                         (component_type N_pl k) (component_number N_pl k)) c groups
         /\ concat groups = filter (fun n => negb (String.eqb n "chi_p")) (parameters_name u).
Proof.
  intros fm u N_pl N_g json m Hc E. rewrite file_values_eq in E.
  destruct (model_components _ _ _ _ _ _ _ E) as (L1 & L2 & H). split.
  { unfold parameters_name. rewrite Hc. repeat first [apply in_or_app; left; solve [in_list]|apply in_or_app; right|solve [in_list]]. }
  intros k c Hk. destruct (H k c Hk) as (R & nss & F & C).
  rewrite names_any in C. split.
  - rewrite (expected_dimension _ _ _ _ _ _ _ F), C. symmetry. now apply names_with_chi_p.
  - exists nss. split; [auto|]. rewrite C. now apply names_filter_chi_p.
Qed.
Print Assumptions C102_chi_p_refuted.

(** one power law, one Gaussian; effective spin, effective precessing spin and redshift *)
Definition ex_uses (chi_p : bool) : uses :=
  {| u_beta_spin_magnitude := false; u_spin_magnitude_mixture := false; u_truncated_normal_spin_x := false;
     u_truncated_normal_spin_y := false; u_truncated_normal_spin_z := false; u_chi_eff_mixture := true;
     u_skew_normal_chi_eff := false; u_truncated_normal_chi_p := chi_p; u_tilt := false; u_eccentricity_mixture := false;
     u_redshift := true; u_cos_iota := false; u_phi_12 := true; u_polarization_angle := false; u_right_ascension := false;
     u_sin_declination := false; u_detection_time := false; u_phi_1 := false; u_phi_2 := false; u_phi_orb := false;
     u_mean_anomaly := false |}.
Definition ex_json (chi_p : bool) : config := map (fun n => (n, COther true)) (extended_params (ex_uses chi_p) 1 1).
Example C102_nonvacuous :
  parameters_name (ex_uses true) = ["mass_1_source"; "mass_2_source"; "chi_eff"; "chi_p"; "phi_12"; "redshift"]
  /\ option_map (fun m => map (map (@d_kind cval)) (components m)) (genie_model String.eqb (ex_uses true) 1 1 (ex_json true))
     = Some [[KPowerlawPrimaryMassRatio; KTwoTruncatedNormalMixture; KUniform; KPowerlawRedshift];
             [KTruncatedNormal; KTruncatedNormal; KTwoTruncatedNormalMixture; KUniform; KPowerlawRedshift]]
  /\ option_map (fun m => map dimension (components m)) (genie_model String.eqb (ex_uses true) 1 1 (ex_json true)) = Some [5; 5]
  /\ option_map (fun m => map dimension (components m)) (genie_model String.eqb (ex_uses false) 1 1 (ex_json false)) = Some [5; 5]
  /\ length (parameters_name (ex_uses false)) = 5.
Proof. repeat split; vm_compute; reflexivity. Qed.

(** ** C103 *)
(** generated rows have as many values as the components have coordinates: they are read back unchanged *)
Theorem C103_read_back_partial :
  forall fullmatch u N_pl N_g json m (rows : list (list X)), u_truncated_normal_chi_p u = false ->
  genie_model fullmatch u N_pl N_g json = Some m ->
  (forall r, In r rows -> exists c, In c (components m) /\ length r = dimension c) ->
  reread (length (parameters_name u)) rows = Some rows.
Proof.
  intros fm u N_pl N_g json m rows Hc E Hr. apply reread_same.
  - unfold parameters_name. cbn. lia.
  - intros r H. destruct (Hr r H) as (c & Hin & ->). apply In_nth_error in Hin as (k & Hk).
    now apply (C102_coordinates_partial _ _ _ _ _ _ Hc E) in Hk.
Qed.
Print Assumptions C103_read_back_partial.

(** with the effective precessing spin the rows are one value short: reading fails, unless the number of
    events is a multiple of the number of parameters; then there are fewer events than were written, and
    the values of one event are taken from two *)
Theorem C103_chi_p_refuted :
  forall fullmatch u N_pl N_g json m (rows : list (list X)), u_truncated_normal_chi_p u = true ->
  genie_model fullmatch u N_pl N_g json = Some m ->
  (forall r, In r rows -> exists c, In c (components m) /\ length r = dimension c) ->
  let k := length (parameters_name u) in
  (length rows mod k <> 0 -> reread k rows = None)
  /\ (length rows mod k = 0 -> exists t, reread k rows = Some t /\ length t = length rows / k * (k - 1)
      /\ forall e j, e < length t -> j < k ->
         nth j (nth e t []) NaN = nth ((e * k + j) mod (k - 1)) (nth ((e * k + j) / (k - 1)) rows []) NaN).
Proof.
  intros fm u N_pl N_g json m rows Hc E Hr k. apply reread_narrow.
  - subst k. unfold parameters_name. cbn. lia.
  - intros r H. destruct (Hr r H) as (c & Hin & ->). apply In_nth_error in Hin as (i & Hi).
    apply (proj2 (C102_chi_p_refuted _ _ _ _ _ _ Hc E)) in Hi as [D _]. subst k. lia.
Qed.
Print Assumptions C103_chi_p_refuted.

Example C103_nonvacuous :
  let row (i : nat) := map (fun j => Fin (INR (10 * i + j))) [1; 2; 3; 4; 5] in
  reread 5 [row 1; row 2] = Some [row 1; row 2]
  /\ reread 6 [row 1; row 2] = None
  /\ option_map (@length (list X)) (reread 6 (map row [1; 2; 3; 4; 5; 6])) = Some 5
  /\ option_map (fun t => nth 1 t []) (reread 6 (map row [1; 2; 3; 4; 5; 6]))
     = Some (map (fun n => Fin (INR n)) [22; 23; 24; 25; 31; 32]).
Proof. repeat split. Qed.

(** ** C104 *)
Theorem C104_names_distinct : forall u N_pl N_g, NoDup (extended_params u N_pl N_g).
Proof. intros. apply genie_names_distinct. Qed.
Print Assumptions C104_names_distinct.

(** a file with a value for every declared hyper-parameter is enough *)
Theorem C104_declared_suffice :
  forall fullmatch u N_pl N_g json, 0 < N_pl + N_g ->
  (forall n, In n (extended_params u N_pl N_g) -> exists v, dget (match_all fullmatch (extended_params u N_pl N_g) json) n = Some v /\ v <> CNull) ->
  exists m, genie_model fullmatch u N_pl N_g json = Some m.
Proof.
  intros fm u N_pl N_g json Hp D. rewrite file_values_eq. apply genie_total; auto.
  intros n Hn. destruct (D n Hn) as (v & E & N). unfold file_values. rewrite dget_values, E. exists v. destruct v; try reflexivity. now destruct N.
Qed.
Print Assumptions C104_declared_suffice.

(** and every one of the values is used, except those for the effective precessing spin *)
Definition chi_p_hyper_parameters : list string :=
  ["chi_p_high_g"; "chi_p_high_pl"; "chi_p_loc_g"; "chi_p_loc_pl"; "chi_p_low_g"; "chi_p_low_pl"; "chi_p_scale_g"; "chi_p_scale_pl"].
Theorem C104_values_reach_partial :
  forall fullmatch u N_pl N_g json m name i v,
  genie_model fullmatch u N_pl N_g json = Some m ->
  In (numbered name i) (extended_params u N_pl N_g) -> ~ In name chi_p_hyper_parameters ->
  dget (file_values fullmatch u N_pl N_g json) (numbered name i) = Some (Some v) -> reaches v m.
Proof.
  intros fm u N_pl N_g json m name i v E H U Hv. rewrite file_values_eq in E.
  apply in_extended in H as (n & c & j & H & Hj & Eq). apply numbered_inj2 in Eq as [<- <-].
  eapply genie_reaches; eauto.
Qed.
Print Assumptions C104_values_reach_partial.

(** those are declared and read, and have no effect *)
Definition chi_p_json : config :=
  (map (fun n => (n, COther true)) (extended_params (ex_uses false) 1 1)
   ++ map (fun n => (numbered n 0, CDict [(n, CNull)])) chi_p_hyper_parameters)%list.
Theorem C104_chi_p_refuted : exists m,
  genie_model String.eqb (ex_uses true) 1 1 chi_p_json = Some m
  /\ genie_model String.eqb (ex_uses true) 1 1 (ex_json true) = Some m
  /\ forall name, In name chi_p_hyper_parameters ->
     In (numbered name 0) (extended_params (ex_uses true) 1 1)
     /\ dget (file_values String.eqb (ex_uses true) 1 1 chi_p_json) (numbered name 0) = Some (Some (CDict [(name, CNull)]))
     /\ dget (file_values String.eqb (ex_uses true) 1 1 (ex_json true)) (numbered name 0) = Some (Some (COther true)).
Proof.
  eexists. split; [vm_compute; reflexivity|]. split; [vm_compute; reflexivity|].
  intros name H. unfold chi_p_hyper_parameters in H.
  repeat (destruct H as [<-|H]; [split; [vm_compute; tauto|split; vm_compute; reflexivity]|]). destruct H.
Qed.
Print Assumptions C104_chi_p_refuted.

Example C104_nonvacuous :
  length (extended_params (ex_uses true) 1 1) = 48
  /\ List.Forall (fun n => dget (match_all String.eqb (extended_params (ex_uses true) 1 1) (ex_json true)) n = Some (COther true))
       (extended_params (ex_uses true) 1 1).
Proof. split; [vm_compute; reflexivity|]. vm_compute. repeat constructor. Qed.

(** ** C105 *)
(** with the parameters of the errors read as the generator reads them, nothing is missing, and every
    declared parameter has exactly one error function; the order is the declared one *)
Theorem C105_covered :
  forall fullmatch truncated_normal normal banana_rows u err_json, exclusive u ->
  exists registry,
    error_registry truncated_normal normal banana_rows (match_all fullmatch (err_params_name u) err_json) u = Some registry
    /\ concat (map fst registry) = parameters_name u /\ NoDup (parameters_name u).
Proof.
  intros fm tn no ba u json X.
  destruct (registry_total tn no ba (match_all fm (err_params_name u) json) u X) as (r & E).
  { intros n Hn. now apply match_all_total. }
  exists r. split; [auto|]. split; [eapply registry_keys; eauto|now apply names_distinct_genie].
Qed.
Print Assumptions C105_covered.
Example C105_nonvacuous :
  exclusive (ex_uses true)
  /\ option_map (map fst) (error_registry (fun _ _ _ _ _ _ => []) (fun _ _ _ _ => []) (fun _ _ _ _ _ => [])
       (match_all String.eqb (err_params_name (ex_uses true)) []) (ex_uses true))
     = Some [["mass_1_source"; "mass_2_source"]; ["chi_eff"]; ["chi_p"]; ["phi_12"]; ["redshift"]]
  (* the generator would stop if the names of the scales were not declared *)
  /\ error_registry (fun _ _ _ _ _ _ => []) (fun _ _ _ _ => []) (fun _ _ _ _ _ => []) [] (ex_uses true) = None.
Proof. repeat split; vm_compute; reflexivity. Qed.

(** ** C106 *)
(** whatever was in memory, every value of every saved posterior row is within the range of its
    parameter; [registry] holds functions that return what the modelled ones return once the redrawing
    has come to an end *)
Theorem C106_ranges_partial :
  forall truncated_normal normal banana_rows err u modelled registry size tiles garbage key data results e rows r i p,
  exclusive u ->
  (forall m s l h k n, length (truncated_normal m s l h k n) = n) ->
  (forall m s k n, length (normal m s k n) = n) ->
  (forall x n k c e, length (banana_rows x n k c e) = n /\ forall r, In r (banana_rows x n k c e) -> length r = 2) ->
  error_registry truncated_normal normal banana_rows err u = Some modelled ->
  List.Forall2 (fun f g => fst f = fst g /\ implements size (snd f) (snd g)) registry modelled ->
  (forall e, length (garbage e) = size /\ forall r, In r (garbage e) -> length r = length (parameters_name u)) ->
  add_error (parameters_name u) size tiles registry garbage key data = Some results ->
  e < length data -> posterior (nth e results (Event [] None None)) = Some rows ->
  In r rows -> nth_error (parameters_name u) i = Some p -> physical p (cell i r).
Proof.
  intros tn no ba err u modelled reg size tiles garbage key data results e rows r i p Xc T1 T2 T3 Em F Hg H He Hp Hr Hi.
  pose proof (registry_keys tn no ba err u modelled Xc Em) as K.
  assert (K' : concat (map fst reg) = parameters_name u).
  { rewrite <- K. f_equal. clear -F. induction F as [|f g l l' [E _] _ IH]; cbn; congruence. }
  assert (G : forall names f, In (names, f) reg -> exists g, In (names, g) modelled /\ implements size f g).
  { clear -F. induction F as [|[n f] [n' g] l l' [E I] _ IH]; cbn in *; intros names f0 []; subst.
    - injection H as <- <-. eauto.
    - destruct (IH _ _ H) as (g0 & A & B). eauto. }
  assert (O : forall names f, In (names, f) reg -> forall v k, length (f v size k) = size /\ forall r, In r (f v size k) ->
     length r = length names /\ forall i p, nth_error names i = Some p -> nth i r NaN <> NaN -> physical p (nth i r NaN)).
  { intros names f Hf v k. destruct (G names f Hf) as (g & Hgm & I). destruct (I v k) as (fuel & E).
    exact (registry_good tn no ba err T1 T2 T3 u modelled names g Xc Em Hgm v size k fuel _ E). }
  destruct (heads_all (parameters_name u) reg K' (names_distinct_genie u Xc)) as (hs & Eh & Fh & N & All).
  destruct (C72_posteriors _ _ _ _ _ _ _ _ _ H Eh N) with (e := e) as (table & L & Lr & Cells & _ & Empty & Full); auto.
  { intros names f Hf v k. destruct (O names f Hf v k) as [O1 O2]. split; auto. intros r0 Hr0. now apply O2. }
  assert (Hrt : In r table /\ complete r = true).
  { destruct (filter complete table) as [|r0 t0] eqn:Ef.
    - destruct (Empty eq_refl) as [E _]. congruence.
    - destruct (Full ltac:(discriminate)) as [E _]. rewrite E in Hp. injection Hp as <-. rewrite <- Ef in Hr. now apply filter_In in Hr. }
  destruct Hrt as [Hrt Hc]. apply In_nth with (d := []) in Hrt as (j & Lj & <-). rewrite L in Lj.
  assert (Li : i < length (parameters_name u)) by (apply nth_error_Some; congruence).
  specialize (All i Li). apply in_concat in All as (h & Hh & Hih).
  apply In_nth with (d := []) in Hh as (g & Lg & Eg). rewrite map_length in Lg.
  apply In_nth with (d := 0) in Hih as (k & Lk & Ek).
  assert (Lhs : length reg = length hs) by (clear -Fh; induction Fh; cbn; congruence).
  assert (P : head_of (parameters_name u) (nth g reg ([], fun _ _ _ => [])) (nth g hs ([], fun _ _ _ => []))).
  { rewrite Lhs in *. clear -Fh Lg. revert g Lg. induction Fh; intros [|g] Lg; cbn in *; try lia; auto. apply IHFh. lia. }
  assert (Eg' : fst (nth g hs ([], fun _ _ _ => [])) = h).
  { rewrite <- Eg. change (@nil nat) with (fst (@nil nat, (fun _ _ _ => []) : list X -> nat -> rng -> list (list X))). now rewrite map_nth. }
  destruct P as [P1 P2]. rewrite Eg' in P1. pose proof (positions _ _ _ P1) as Pn.
  assert (Ln : length (fst (nth g reg ([], fun _ _ _ => []))) = length h) by (rewrite <- Pn; now rewrite map_length).
  specialize (Cells g k j). cbn zeta in Cells. rewrite Eg', Ek in Cells.
  rewrite Cells by lia.
  destruct (nth g reg ([], fun _ _ _ => [])) as [names f] eqn:Er. cbn [fst snd] in *.
  assert (Hin : In (names, f) reg) by (rewrite <- Er; apply nth_In; lia).
  match goal with |- physical _ (nth k (nth j (f ?v size ?kk) []) NaN) => destruct (O names f Hin v kk) as [O1 O2]; set (out := f v size kk) in * end.
  destruct (O2 (nth j out [])) as [O3 O4]; [apply nth_In; lia|]. apply O4.
  - rewrite <- Pn. rewrite nth_error_map, (nth_error_nth' _ 0 Lk), Ek. cbn [option_map]. f_equal. now apply nth_error_nth.
  - rewrite <- Cells by lia. intros Z. unfold complete in Hc.
    apply negb_true_iff in Hc. assert (existsb isnan (nth j table []) = true) as Hc'; [|congruence].
    apply existsb_exists. exists NaN. split; auto. rewrite <- Z. unfold cell. apply nth_In. rewrite Lr; [exact Li|]. apply nth_In. lia.
Qed.
Print Assumptions C106_ranges_partial.

(** the effective spins are only cut where the file says so: without, any value is kept *)
Theorem C106_effective_spin_refuted :
  forall fullmatch truncated_normal normal banana_rows u, exclusive u ->
  forall p, (p = "chi_eff" /\ (u_chi_eff_mixture u = true \/ u_skew_normal_chi_eff u = true))
            \/ (p = "chi_p" /\ u_truncated_normal_chi_p u = true) ->
  forall err_json scale, dget err_json (p ++ "_scale") = Some (CNum (Fin scale)) -> scale <> 0%R ->
  (forall k v n, In (k, v) err_json -> In n [p ++ "_cut_low"; p ++ "_cut_high"] -> k <> n /\ fullmatch k n = false) ->
  exists registry g, 
    error_registry truncated_normal normal banana_rows (match_all fullmatch (err_params_name u) err_json) u = Some registry
    /\ In ([p], g) registry
    /\ forall x size key fuel, exists low high,
         g [x] size key fuel = Rows (map (fun v => [v]) (truncated_normal x (CNum (Fin scale)) low high key size)).
Proof.
  intros fm tn no ba u X p Hp json scale Hs Hz Hcut.
  set (err := match_all fm (err_params_name u) json).
  destruct (registry_total tn no ba err u X) as (r & E).
  { intros n Hn. now apply match_all_total. }
  assert (Names : forall q, In q ["_scale"; "_cut_low"; "_cut_high"] -> In (p ++ q) (err_params_name u)).
  { intros q Hq. destruct Hp as [[-> [H|H]]|[-> H]]; repeat (destruct Hq as [<-|Hq]; [err_name H|]); destruct Hq. }
  assert (Es : dget err (p ++ "_scale") = Some (CNum (Fin scale))).
  { apply exact_entry; auto; [apply Names; in_list| |discriminate]. cbn. now destruct (Req_EM_T scale 0). }
  assert (Cut : forall n, In n [p ++ "_cut_low"; p ++ "_cut_high"] -> In n (err_params_name u) -> dget err n = Some CNull).
  { intros n Hn Hin. apply absent_entry; auto; intros k v Hk; destruct (Hcut k v n Hk Hn); auto. }
  assert (C : In (RStr p, truncated_error_cuts tn err p) (register_calls tn no ba err u)).
  { unfold register_calls. destruct Hp as [[-> [H|H]]|[-> H]]; rewrite H; unfold when at 1 2 3 4 5 6 7 8;
    repeat first [apply in_or_app; left; solve [left; reflexivity]|apply in_or_app; right|solve [left; reflexivity]]. }
  assert (T : exists g, truncated_error_cuts tn err p = Some g /\ forall x size key fuel, exists low high,
         g [x] size key fuel = Rows (map (fun v => [v]) (tn x (CNum (Fin scale)) low high key size))).
  { unfold truncated_error_cuts, err_item, err_get. rewrite Es, !Cut by (try (apply Names); in_list). cbn [cut_of].
    unfold truncated_error, err_item. rewrite Es. cbn [option_map]. eexists. split; [reflexivity|].
    intros x size key fuel. do 2 eexists. reflexivity. }
  destruct T as (g & Tg & Tx). exists r, g. split; [auto|]. split; [|auto].
  assert (In ([p], Some g) (as_calls r)) as Hc.
  { rewrite (registry_calls tn no ba err u r X E). apply in_map_iff. exists (RStr p, truncated_error_cuts tn err p).
    split; [cbn; now rewrite Tg|auto]. }
  unfold as_calls in Hc. apply in_map_iff in Hc as ([k f] & Ek & Hin). cbn in Ek. injection Ek as <- <-. exact Hin.
Qed.
Print Assumptions C106_effective_spin_refuted.

(** an eccentricity, a redshift and an angle *)
Definition ecc_uses : uses :=
  {| u_beta_spin_magnitude := false; u_spin_magnitude_mixture := false; u_truncated_normal_spin_x := false;
     u_truncated_normal_spin_y := false; u_truncated_normal_spin_z := false; u_chi_eff_mixture := false;
     u_skew_normal_chi_eff := false; u_truncated_normal_chi_p := false; u_tilt := false; u_eccentricity_mixture := true;
     u_redshift := true; u_cos_iota := false; u_phi_12 := true; u_polarization_angle := false; u_right_ascension := false;
     u_sin_declination := false; u_detection_time := false; u_phi_1 := false; u_phi_2 := false; u_phi_orb := false;
     u_mean_anomaly := false |}.
Definition ex_normal (m : X) (_ _ _ : cval) (_ : rng) (n : nat) : list X := repeat (Fin (1/2)%R) n.
Definition ex_err : list (string * cval) := match_all String.eqb (err_params_name ecc_uses)
  (map (fun n => (n, COther true)) (err_params_name ecc_uses)).
Definition ex_banana (x : list X) (n : nat) (_ : rng) (_ _ : cval) : list (list X) := repeat [nth 0 x NaN; nth 1 x NaN] n.
Definition ex_registry : list (list string * (list X -> nat -> rng -> list (list X))) :=
  [(["mass_1_source"; "mass_2_source"], fun x n _ => repeat [nth 0 x NaN; nth 1 x NaN] n);
   (["phi_12"], fun _ n _ => repeat [xmod (Fin (1/2)%R) (2 * PI)] n);
   (["eccentricity"], fun _ n _ => repeat [Fin (1/2)%R] n);
   (["redshift"], fun _ n _ => repeat [Fin (1/2)%R] n)].
Example C106_nonvacuous :
  exclusive ecc_uses
  /\ parameters_name ecc_uses = ["mass_1_source"; "mass_2_source"; "phi_12"; "eccentricity"; "redshift"]
  /\ (exists modelled, error_registry ex_normal (fun m _ _ n => repeat m n) ex_banana ex_err ecc_uses = Some modelled
      /\ List.Forall2 (fun f g => fst f = fst g /\ implements 2 (snd f) (snd g)) ex_registry modelled)
  /\ physical "eccentricity" (Fin (1/2)%R) /\ ~ physical "eccentricity" (Fin (-1)%R) /\ ~ physical "redshift" (Fin 0%R)
  /\ ~ physical "phi_12" (Fin (2 * PI)%R).
Proof.
  split; [split; reflexivity|]. split; [reflexivity|]. split.
  - eexists. split; [vm_compute; reflexivity|].
    constructor; [split; [reflexivity|intros x k; exists 0; reflexivity]|].
    constructor; [split; [reflexivity|intros x k; exists 0; reflexivity]|].
    constructor.
    { split; [reflexivity|]. intros x k. exists 0. cbn. destruct (Rlt_dec _ _); [lra|]. destruct (Rlt_dec _ _); [lra|]. reflexivity. }
    constructor; [|constructor].
    split; [reflexivity|]. intros x k. exists 0. cbn. destruct (Rlt_dec _ _); [lra|]. reflexivity.
  - unfold physical. cbn. split; [exists (1/2)%R; split; [reflexivity|lra]|]. split; [|split].
    + intros (r & [= <-] & H). lra.
    + intros [H|(r & [= <-] & H)]; [discriminate|lra].
    + intros (r & [= <-] & H). lra.
Qed.

(** ** C107 *)
(** bounds given in the file are those of the normal distribution, and every angle is brought into one turn *)
Theorem C107_given_bounds_partial :
  forall truncated_normal err p period x size key fuel scale low high,
  dget err (p ++ "_scale") = Some scale -> dget err (p ++ "_low") = Some low -> dget err (p ++ "_high") = Some high ->
  (0 < period)%R ->
  exists draws wrapped,
    angle_error truncated_normal err p period x size key fuel = Rows (map (fun v => [v]) wrapped)
    /\ draws = truncated_normal (nth 0 x NaN) scale low high key size
    /\ List.Forall2 (fun v w => forall r, v = Fin r -> exists turns : Z, w = Fin (r - IZR turns * period)%R /\ on_circle period w) draws wrapped.
Proof.
  intros tn err p period x size key fuel scale low high Es El Eh Hp.
  unfold angle_error, err_item, err_get_or. rewrite Es, El, Eh.
  exists (tn (head x) scale low high key size), (map (fun v => xmod v period) (tn (head x) scale low high key size)).
  rewrite map_map. split; [reflexivity|]. split; [reflexivity|].
  induction (tn (head x) scale low high key size) as [|v l IH]; constructor; auto.
  intros r ->. exists (Int_part (r / period)). split; [cbn; f_equal; ring|]. apply xmod_circle; auto. discriminate.
Qed.
Print Assumptions C107_given_bounds_partial.

(** bounds left out of the file are not replaced by the full turn: the distribution is built with None *)
Theorem C107_default_refuted :
  forall fullmatch truncated_normal names err_json p period scale,
  In (p ++ "_scale") names -> In (p ++ "_low") names -> In (p ++ "_high") names ->
  dget (match_all fullmatch names err_json) (p ++ "_scale") = Some scale ->
  (forall k v n, In (k, v) err_json -> In n [p ++ "_low"; p ++ "_high"] -> k <> n /\ fullmatch k n = false) ->
  forall x size key fuel,
    angle_error truncated_normal (match_all fullmatch names err_json) p period x size key fuel
    = Rows (map (fun v => [xmod v period]) (truncated_normal (nth 0 x NaN) scale CNull CNull key size)).
Proof.
  intros fm tn names json p period scale Ns Nl Nh Es Hk x size key fuel.
  assert (Cut : forall n, In n [p ++ "_low"; p ++ "_high"] -> In n names -> dget (match_all fm names json) n = Some CNull).
  { intros n Hn Hin. apply absent_entry; auto; intros k v H; destruct (Hk k v n H Hn); auto. }
  unfold angle_error, err_item, err_get_or. rewrite Es, !Cut by (auto; in_list). reflexivity.
Qed.
Print Assumptions C107_default_refuted.

Example C107_nonvacuous :
  let names := err_params_name (ex_uses true) in
  In "phi_12_low" names /\ In "phi_12_high" names
  /\ dget (match_all String.eqb names [("phi_12_scale", COther true)]) "phi_12_scale" = Some (COther true)
  /\ dget (match_all String.eqb names [("phi_12_scale", COther true)]) "phi_12_low" = Some CNull
  /\ dget (match_all String.eqb names [("phi_12_low", COther true)]) "phi_12_low" = Some (COther true).
Proof. vm_compute. tauto. Qed.

(** ** C108 *)
(** draws between 0 and 1 are kept; whatever is saved is between 0 and 1 or undefined *)
Theorem C108_eccentricity_partial :
  forall truncated_normal err x size key out,
  ecc_error_fn truncated_normal err x size key = Some out ->
  exists scale low high, dget err "scale" = Some scale /\ dget err "low" = Some low /\ dget err "high" = Some high
    /\ List.Forall2 (fun v w => (between 0 1 v -> w = v) /\ (w = NaN \/ between 0 1 w))
         (truncated_normal (nth 0 x NaN) scale low high key size) out.
Proof.
  intros tn err x size key out E. unfold ecc_error_fn, err_item in E.
  destruct (dget err "scale") as [s|]; [|discriminate]. destruct (dget err "low") as [l|]; [|discriminate].
  destruct (dget err "high") as [h|]; [|discriminate]. injection E as <-. exists s, l, h. repeat split; auto.
  change (head x) with (nth 0 x NaN). induction (tn (nth 0 x NaN) s l h key size) as [|v vs IH]; constructor; auto.
  assert (One : between 0 1 (Fin 1)) by (exists 1%R; split; [reflexivity|lra]).
  destruct v as [r| | |]; cbn.
  - destruct (Rlt_dec r 0); cbn; [split; [intros (q & [= <-] & H); lra|auto]|].
    destruct (Rlt_dec 1 r); [split; [intros (q & [= <-] & H); lra|auto]|]. split; auto. right. exists r. split; auto. lra.
  - split; [intros (q & [=] & _)|auto].
  - split; [intros (q & [=] & _)|auto].
  - split; [intros (q & [=] & _)|auto].
Qed.
Print Assumptions C108_eccentricity_partial.

(** a draw outside becomes 1, not undefined: it stays among the posterior samples *)
Theorem C108_discarded_refuted :
  forall truncated_normal err x size key scale low high i r,
  dget err "scale" = Some scale -> dget err "low" = Some low -> dget err "high" = Some high ->
  nth_error (truncated_normal (nth 0 x NaN) scale low high key size) i = Some (Fin r) -> (r < 0 \/ 1 < r)%R ->
  exists out, ecc_error_fn truncated_normal err x size key = Some out /\ nth_error out i = Some (Fin 1%R).
Proof.
  intros tn err x size key s l h i r Es El Eh Hi Hr. unfold ecc_error_fn, err_item. rewrite Es, El, Eh.
  eexists. split; [reflexivity|]. rewrite nth_error_map. change (head x) with (nth 0 x NaN). rewrite Hi. cbn.
  destruct (Rlt_dec r 0); auto. destruct (Rlt_dec 1 r); auto. lra.
Qed.
Print Assumptions C108_discarded_refuted.

Example C108_nonvacuous :
  ecc_error_fn (fun m _ _ _ _ _ => [Fin (-1/2); Fin (1/4)]%R) [("scale", COther true); ("low", CNull); ("high", CNull)]
    [Fin (1/10)%R] 2 (Seed 0) = Some [Fin 1; Fin (1/4)]%R
  /\ ecc_error_fn (fun m _ _ _ _ _ => [Fin (-1/2); Fin (1/4)]%R) [("scale", COther true)] [Fin (1/10)%R] 2 (Seed 0) = None.
Proof.
  split; [|reflexivity]. cbn. repeat (destruct (Rlt_dec _ _); try lra); reflexivity.
Qed.

(** ** C109 *)
(** after any sequence of registrations, a tuple is found exactly if it, or its only name, was
    registered, and then with the last model registered under it; the order is that of the first
    registrations *)
Definition names_of (p : reg_arg) : list string := match p with RStr s => [s] | RTuple l => l | _ => [] end.
Definition registrable (p : reg_arg) : Prop := match p with RStr _ | RTuple _ => True | _ => False end.
Fixpoint last_model {M} (key : list string) (calls : list (reg_arg * M)) : option M :=
  match calls with
  | [] => None
  | (p, m) :: rest => match last_model key rest with
                      | Some m' => Some m'
                      | None => if list_eq_dec string_dec (names_of p) key then Some m else None
                      end
  end.
Fixpoint firsts (seen : list (list string)) (keys : list (list string)) : list (list string) :=
  match keys with
  | [] => seen
  | k :: rest => firsts (if in_dec (list_eq_dec string_dec) k seen then seen else seen ++ [k])%list rest
  end.
Lemma register_all_spec {M} (calls : list (reg_arg * M)) : forall r, List.Forall (fun c => registrable (fst c)) calls ->
  exists r', register_all calls r = Some r'
    /\ (forall key, reg_get r' key = match last_model key calls with Some m => Some m | None => reg_get r key end)
    /\ map fst r' = firsts (map fst r) (map (fun c => names_of (fst c)) calls).
Proof.
  induction calls as [|[p m] calls IH]; intros r F.
  - exists r. repeat split; auto.
  - inversion F as [|? ? Fp Fr]; subst. cbn [fst] in Fp.
    assert (R : register r p m = Some (reg_set r (names_of p) m)) by (destruct p; cbn in Fp; try tauto; reflexivity).
    rewrite register_all_cons, R. destruct (IH (reg_set r (names_of p) m) Fr) as (r' & E & G & K). exists r'.
    split; [auto|]. split.
    + intros key. rewrite G. cbn [last_model]. destruct (last_model key calls); auto. rewrite reg_get_set.
      destruct (list_eq_dec string_dec (names_of p) key) as [->|N]; [now rewrite names_eqb_refl|].
      destruct (names_eqb (names_of p) key) eqn:Eq; auto. now apply names_eqb_eq in Eq.
    + rewrite K. cbn [map firsts fst]. f_equal.
      destruct (in_dec (list_eq_dec string_dec) (names_of p) (map fst r)) as [H|H].
      * now apply reg_set_keys.
      * rewrite reg_set_new by auto. now rewrite map_app.
Qed.
Theorem C109_registered_partial :
  forall M (calls : list (reg_arg * M)), List.Forall (fun c => registrable (fst c)) calls ->
  exists r, register_all calls [] = Some r
    /\ (forall key, reg_lookup r (RTuple key) = last_model key calls)
    /\ map fst r = firsts [] (map (fun c => names_of (fst c)) calls).
Proof.
  intros M calls F. destruct (register_all_spec calls [] F) as (r & E & G & K). exists r. split; [auto|]. split; [|auto].
  intros key. cbn. rewrite G. now destruct (last_model key calls).
Qed.
Print Assumptions C109_registered_partial.
(** anything else is refused *)
Theorem C109_refused : forall M (r : registry_t M) p m, register r p m = None <-> ~ registrable p.
Proof. intros M r p m. destruct p; cbn; intuition discriminate. Qed.
Print Assumptions C109_refused.
(** a model registered under a name is not found under that name *)
Theorem C109_by_name_refuted : forall M (calls : list (reg_arg * M)) r s m,
  register_all (calls ++ [(RStr s, m)]) [] = Some r -> reg_lookup r (RStr s) = None /\ reg_lookup r (RTuple [s]) = Some m.
Proof.
  intros M calls r s m E. split; [reflexivity|]. rewrite register_all_app in E.
  destruct (register_all calls []) as [r'|]; [|discriminate]. cbn in E. injection E as <-. cbn.
  now rewrite reg_get_set, names_eqb_refl.
Qed.
Print Assumptions C109_by_name_refuted.
Example C109_nonvacuous :
  let calls := [(RStr "a", 1); (RTuple ["b"; "c"], 2); (RTuple ["a"], 3)] in
  List.Forall (fun c : reg_arg * nat => registrable (fst c)) calls
  /\ register_all calls [] = Some [(["a"], 3); (["b"; "c"], 2)]
  /\ last_model ["a"] calls = Some 3 /\ last_model ["c"; "b"] calls = None
  /\ register_all (calls ++ [(RMixedTuple, 4)])%list [] = None.
Proof. repeat split; repeat constructor. Qed.
