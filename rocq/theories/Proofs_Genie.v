(** Lemmas about the generators. *)
From Coq Require Import Decimal DecimalString.
From Coq Require Import String Reals List Bool Arith Lia Lra.
From Verif Require Import Model_X Model_Joint Model_Guru Model_Config Spec_Config Proofs_Guru Proofs_Config Model_Key Model_Errors
  Spec_Errors Model_Population Proofs_Population Model_NPLMG Spec_NPLMG Proofs_NPLMG Model_Genie Spec_Genie.
Import ListNotations.
Open Scope string_scope.
Open Scope nat_scope.

(** ** coordinates *)
Lemma rest_any {V} (one zero : V) u : rest one zero u
  = (when (u_beta_spin_magnitude u) ["a_1"; "a_2"]
     ++ when (u_spin_magnitude_mixture u) ["a_1"; "a_2"]
     ++ when (u_truncated_normal_spin_x u) ["spin_1x"; "spin_2x"]
     ++ when (u_truncated_normal_spin_y u) ["spin_1y"; "spin_2y"]
     ++ when (u_truncated_normal_spin_z u) ["spin_1z"; "spin_2z"]
     ++ when (u_chi_eff_mixture u) ["chi_eff"]
     ++ when (u_skew_normal_chi_eff u) ["chi_eff"]
     ++ when (u_truncated_normal_chi_p u) ["chi_p"]
     ++ when (u_tilt u) ["cos_tilt_1"; "cos_tilt_2"]
     ++ when (u_phi_1 u) ["phi_1"] ++ when (u_phi_2 u) ["phi_2"] ++ when (u_phi_12 u) ["phi_12"]
     ++ when (u_eccentricity_mixture u) ["eccentricity"]
     ++ when (u_mean_anomaly u) ["mean_anomaly"]
     ++ when (u_redshift u) ["redshift"]
     ++ when (u_right_ascension u) ["ra"]
     ++ when (u_sin_declination u) ["dec"]
     ++ when (u_detection_time u) ["detection_time"]
     ++ when (u_cos_iota u) ["cos_iota"]
     ++ when (u_polarization_angle u) ["psi"]
     ++ when (u_phi_orb u) ["phi_orb"])%list.
Proof.
  unfold rest, selected, info_collection, quantities, when.
  cbn [combine map concat used fst snd]. rewrite !if_pair. now rewrite app_nil_r.
Qed.
Lemma names_any {V} (one zero : V) u : (masses ++ rest one zero u)%list = parameters_name u.
Proof. rewrite rest_any. reflexivity. Qed.
Lemma names_without_chi_p u : u_truncated_normal_chi_p u = false -> parameters_name (model_uses u) = parameters_name u.
Proof.
  intros H. unfold parameters_name, model_uses.
  cbn [u_beta_spin_magnitude u_spin_magnitude_mixture u_truncated_normal_spin_x u_truncated_normal_spin_y
    u_truncated_normal_spin_z u_chi_eff_mixture u_skew_normal_chi_eff u_truncated_normal_chi_p u_tilt
    u_eccentricity_mixture u_redshift u_cos_iota u_phi_12 u_polarization_angle u_right_ascension
    u_sin_declination u_detection_time u_phi_1 u_phi_2 u_phi_orb u_mean_anomaly].
  rewrite H. reflexivity.
Qed.
Lemma names_with_chi_p u : u_truncated_normal_chi_p u = true ->
  length (parameters_name u) = S (length (parameters_name (model_uses u))).
Proof.
  intros H. unfold parameters_name, model_uses.
  cbn [u_beta_spin_magnitude u_spin_magnitude_mixture u_truncated_normal_spin_x u_truncated_normal_spin_y
    u_truncated_normal_spin_z u_chi_eff_mixture u_skew_normal_chi_eff u_truncated_normal_chi_p u_tilt
    u_eccentricity_mixture u_redshift u_cos_iota u_phi_12 u_polarization_angle u_right_ascension
    u_sin_declination u_detection_time u_phi_1 u_phi_2 u_phi_orb u_mean_anomaly].
  rewrite H, !app_length. cbn [length]. lia.
Qed.

(** ** reading rows back *)
Lemma concat_length_const {A} w (rows : list (list A)) : (forall r, In r rows -> length r = w) ->
  length (concat rows) = length rows * w.
Proof.
  induction rows as [|r rows IH]; cbn; auto. intros H. rewrite app_length, IH by auto. rewrite (H r); auto.
Qed.
Lemma firstn_exact {A} (a b : list A) : firstn (length a) (a ++ b) = a.
Proof. rewrite firstn_app, Nat.sub_diag, firstn_all. cbn. apply app_nil_r. Qed.
Lemma skipn_exact {A} (a b : list A) : skipn (length a) (a ++ b) = b.
Proof. rewrite skipn_app, Nat.sub_diag, skipn_all. reflexivity. Qed.
Lemma chunks_concat {A} k (rows : list (list A)) : (forall r, In r rows -> length r = k) ->
  chunks k (length rows) (concat rows) = rows.
Proof.
  induction rows as [|r rows IH]; cbn [length chunks concat]; auto. intros H.
  pose proof (H r (or_introl eq_refl)) as L. subst k.
  rewrite firstn_exact, skipn_exact, IH; auto. intros; apply H; now right.
Qed.
Lemma reread_same {A} k (rows : list (list A)) : 0 < k -> (forall r, In r rows -> length r = k) -> reread k rows = Some rows.
Proof.
  intros Hk H. unfold reread. rewrite (concat_length_const k) by auto.
  rewrite Nat.mod_mul, Nat.div_mul by lia. cbn. now rewrite chunks_concat.
Qed.

Lemma nth_firstn {A} (d : A) k i l : i < k -> nth i (firstn k l) d = nth i l d.
Proof. revert i l. induction k; intros i l H; [lia|]. destruct l, i; cbn; auto. apply IHk. lia. Qed.
Lemma nth_skipn {A} (d : A) k i l : nth i (skipn k l) d = nth (k + i) l d.
Proof. revert l. induction k; intros l; auto. destruct l; cbn; auto. destruct i; reflexivity. Qed.
Lemma chunks_length {A} k n (l : list A) : length (chunks k n l) = n.
Proof. revert l. induction n; cbn; auto. Qed.
Lemma chunks_nth {A} (d : A) k n l e j : e < n -> j < k -> nth j (nth e (chunks k n l) []) d = nth (e * k + j) l d.
Proof.
  revert l e. induction n; intros l e He Hj; [lia|]. cbn [chunks]. destruct e.
  - cbn [nth]. now rewrite nth_firstn.
  - cbn [nth]. rewrite IHn by lia. rewrite nth_skipn. f_equal. lia.
Qed.
Lemma concat_nth {A} (d : A) w (rows : list (list A)) : 0 < w -> (forall r, In r rows -> length r = w) ->
  forall i, i < length rows * w -> nth i (concat rows) d = nth (i mod w) (nth (i / w) rows []) d.
Proof.
  intros Hw. induction rows as [|r rows IH]; intros H i Hi; [cbn in Hi; lia|]. cbn [concat].
  pose proof (H r (or_introl eq_refl)) as L.
  destruct (Nat.lt_ge_cases i w) as [C|C].
  - rewrite app_nth1 by lia. rewrite Nat.div_small, Nat.mod_small by lia. reflexivity.
  - rewrite app_nth2 by lia. rewrite L. cbn [length] in Hi. rewrite IH by (auto; try (intros; apply H; now right); lia).
    replace i with (i - w + 1 * w) at 3 4 by lia. rewrite Nat.div_add, Nat.mod_add by lia.
    rewrite Nat.add_1_r. reflexivity.
Qed.
Lemma coprime_pred k n : 2 <= k -> (n * (k - 1)) mod k = 0 -> n mod k = 0.
Proof.
  intros Hk H. apply Nat.mod_divide in H; [|lia]. apply Nat.mod_divide; [lia|].
  apply (Nat.gauss k (k - 1) n).
  - now rewrite Nat.mul_comm.
  - destruct (Nat.gcd_divide_l k (k - 1)) as [a Ha]. destruct (Nat.gcd_divide_r k (k - 1)) as [b Hb].
    set (g := Nat.gcd k (k - 1)) in *. assert (E : (a - b) * g = 1) by nia. apply Nat.mul_eq_1 in E. tauto.
Qed.
Lemma reread_narrow {A} (d : A) k (rows : list (list A)) : 2 <= k -> (forall r, In r rows -> length r = k - 1) ->
  (length rows mod k <> 0 -> reread k rows = None)
  /\ (length rows mod k = 0 -> exists t, reread k rows = Some t /\ length t = length rows / k * (k - 1)
      /\ forall e j, e < length t -> j < k ->
         nth j (nth e t []) d = nth ((e * k + j) mod (k - 1)) (nth ((e * k + j) / (k - 1)) rows []) d).
Proof.
  intros Hk H. unfold reread. rewrite (concat_length_const (k - 1)) by auto. split; intros M.
  - destruct (Nat.eqb_spec ((length rows * (k - 1)) mod k) 0) as [E|E]; auto. now apply coprime_pred in E.
  - apply Nat.mod_divide in M as [q Hq]; [|lia]. rewrite Hq.
    replace (q * k * (k - 1)) with (q * (k - 1) * k) by lia. rewrite Nat.mod_mul, !Nat.div_mul by lia.
    cbn [Nat.eqb]. eexists. split; [reflexivity|]. rewrite chunks_length. split; auto.
    intros e j He Hj. rewrite chunks_nth by auto. apply concat_nth; auto; [lia|]. rewrite Hq. nia.
Qed.

(** ** hyper-parameters *)
Definition genie_blocks : list ((uses -> bool) * list (string * tag)) :=
  [(fun _ => true,
    [("alpha_pl", TP); ("beta_pl", TP); ("log_rate", TB); ("m1_high_g", TG); ("m1_loc_g", TG);
     ("m1_low_g", TG); ("m1_scale_g", TG); ("m2_high_g", TG); ("m2_loc_g", TG); ("m2_low_g", TG);
     ("m2_scale_g", TG); ("mmax_pl", TP); ("mmin_pl", TP)]);
   (u_beta_spin_magnitude,
    [("a_1_mean_g", TG); ("a_1_mean_pl", TP); ("a_1_variance_g", TG); ("a_1_variance_pl", TP);
     ("a_2_mean_g", TG); ("a_2_mean_pl", TP); ("a_2_variance_g", TG); ("a_2_variance_pl", TP)]);
   (u_spin_magnitude_mixture,
    [("a_zeta_g", TG); ("a_zeta_pl", TP); ("a_1_comp1_high_g", TG); ("a_1_comp1_high_pl", TP);
     ("a_1_comp1_loc_g", TG); ("a_1_comp1_loc_pl", TP); ("a_1_comp1_low_g", TG);
     ("a_1_comp1_low_pl", TP); ("a_1_comp1_scale_g", TG); ("a_1_comp1_scale_pl", TP);
     ("a_1_comp2_high_g", TG); ("a_1_comp2_high_pl", TP); ("a_1_comp2_loc_g", TG);
     ("a_1_comp2_loc_pl", TP); ("a_1_comp2_low_g", TG); ("a_1_comp2_low_pl", TP);
     ("a_1_comp2_scale_g", TG); ("a_1_comp2_scale_pl", TP); ("a_2_comp1_high_g", TG);
     ("a_2_comp1_high_pl", TP); ("a_2_comp1_loc_g", TG); ("a_2_comp1_loc_pl", TP);
     ("a_2_comp1_low_g", TG); ("a_2_comp1_low_pl", TP); ("a_2_comp1_scale_g", TG);
     ("a_2_comp1_scale_pl", TP); ("a_2_comp2_high_g", TG); ("a_2_comp2_high_pl", TP);
     ("a_2_comp2_loc_g", TG); ("a_2_comp2_loc_pl", TP); ("a_2_comp2_low_g", TG);
     ("a_2_comp2_low_pl", TP); ("a_2_comp2_scale_g", TG); ("a_2_comp2_scale_pl", TP)]);
   (u_truncated_normal_spin_x,
    [("spin_1x_high_g", TG); ("spin_1x_high_pl", TP); ("spin_1x_loc_g", TG);
     ("spin_1x_loc_pl", TP); ("spin_1x_low_g", TG); ("spin_1x_low_pl", TP);
     ("spin_1x_scale_g", TG); ("spin_1x_scale_pl", TP); ("spin_2x_high_g", TG);
     ("spin_2x_high_pl", TP); ("spin_2x_loc_g", TG); ("spin_2x_loc_pl", TP); ("spin_2x_low_g", TG);
     ("spin_2x_low_pl", TP); ("spin_2x_scale_g", TG); ("spin_2x_scale_pl", TP)]);
   (u_truncated_normal_spin_y,
    [("spin_1y_high_g", TG); ("spin_1y_high_pl", TP); ("spin_1y_loc_g", TG);
     ("spin_1y_loc_pl", TP); ("spin_1y_low_g", TG); ("spin_1y_low_pl", TP);
     ("spin_1y_scale_g", TG); ("spin_1y_scale_pl", TP); ("spin_2y_high_g", TG);
     ("spin_2y_high_pl", TP); ("spin_2y_loc_g", TG); ("spin_2y_loc_pl", TP); ("spin_2y_low_g", TG);
     ("spin_2y_low_pl", TP); ("spin_2y_scale_g", TG); ("spin_2y_scale_pl", TP)]);
   (u_truncated_normal_spin_z,
    [("spin_1z_high_g", TG); ("spin_1z_high_pl", TP); ("spin_1z_loc_g", TG);
     ("spin_1z_loc_pl", TP); ("spin_1z_low_g", TG); ("spin_1z_low_pl", TP);
     ("spin_1z_scale_g", TG); ("spin_1z_scale_pl", TP); ("spin_2z_high_g", TG);
     ("spin_2z_high_pl", TP); ("spin_2z_loc_g", TG); ("spin_2z_loc_pl", TP); ("spin_2z_low_g", TG);
     ("spin_2z_low_pl", TP); ("spin_2z_scale_g", TG); ("spin_2z_scale_pl", TP)]);
   (u_chi_eff_mixture,
    [("chi_eff_comp1_high_g", TG); ("chi_eff_comp1_high_pl", TP); ("chi_eff_comp1_loc_g", TG);
     ("chi_eff_comp1_loc_pl", TP); ("chi_eff_comp1_low_g", TG); ("chi_eff_comp1_low_pl", TP);
     ("chi_eff_comp1_scale_g", TG); ("chi_eff_comp1_scale_pl", TP); ("chi_eff_comp2_high_g", TG);
     ("chi_eff_comp2_high_pl", TP); ("chi_eff_comp2_loc_g", TG); ("chi_eff_comp2_loc_pl", TP);
     ("chi_eff_comp2_low_g", TG); ("chi_eff_comp2_low_pl", TP); ("chi_eff_comp2_scale_g", TG);
     ("chi_eff_comp2_scale_pl", TP); ("chi_eff_zeta_g", TG); ("chi_eff_zeta_pl", TP)]);
   (u_skew_normal_chi_eff,
    [("chi_eff_epsilon_g", TG); ("chi_eff_epsilon_pl", TP); ("chi_eff_loc_g", TG);
     ("chi_eff_loc_pl", TP); ("chi_eff_scale_g", TG); ("chi_eff_scale_pl", TP)]);
   (u_truncated_normal_chi_p,
    [("chi_p_high_g", TG); ("chi_p_high_pl", TP); ("chi_p_loc_g", TG); ("chi_p_loc_pl", TP);
     ("chi_p_low_g", TG); ("chi_p_low_pl", TP); ("chi_p_scale_g", TG); ("chi_p_scale_pl", TP)]);
   (u_tilt,
    [("cos_tilt_zeta_g", TG); ("cos_tilt_zeta_pl", TP); ("cos_tilt_1_scale_g", TG);
     ("cos_tilt_1_scale_pl", TP); ("cos_tilt_2_scale_g", TG); ("cos_tilt_2_scale_pl", TP)]);
   (u_phi_1,
    [("phi_1_high_g", TG); ("phi_1_high_pl", TP); ("phi_1_low_g", TG); ("phi_1_low_pl", TP)]);
   (u_phi_2,
    [("phi_2_high_g", TG); ("phi_2_high_pl", TP); ("phi_2_low_g", TG); ("phi_2_low_pl", TP)]);
   (u_phi_12,
    [("phi_12_high_g", TG); ("phi_12_high_pl", TP); ("phi_12_low_g", TG); ("phi_12_low_pl", TP)]);
   (u_eccentricity_mixture,
    [("eccentricity_comp1_high_g", TG); ("eccentricity_comp1_high_pl", TP);
     ("eccentricity_comp1_loc_g", TG); ("eccentricity_comp1_loc_pl", TP);
     ("eccentricity_comp1_low_g", TG); ("eccentricity_comp1_low_pl", TP);
     ("eccentricity_comp1_scale_g", TG); ("eccentricity_comp1_scale_pl", TP);
     ("eccentricity_comp2_high_g", TG); ("eccentricity_comp2_high_pl", TP);
     ("eccentricity_comp2_loc_g", TG); ("eccentricity_comp2_loc_pl", TP);
     ("eccentricity_comp2_low_g", TG); ("eccentricity_comp2_low_pl", TP);
     ("eccentricity_comp2_scale_g", TG); ("eccentricity_comp2_scale_pl", TP);
     ("eccentricity_zeta_g", TG); ("eccentricity_zeta_pl", TP)]);
   (u_mean_anomaly,
    [("mean_anomaly_high_g", TG); ("mean_anomaly_high_pl", TP); ("mean_anomaly_low_g", TG);
     ("mean_anomaly_low_pl", TP)]);
   (u_redshift,
    [("redshift_kappa_g", TG); ("redshift_kappa_pl", TP); ("redshift_z_max_g", TG);
     ("redshift_z_max_pl", TP)]);
   (u_right_ascension,
    [("ra_high_g", TG); ("ra_high_pl", TP); ("ra_low_g", TG); ("ra_low_pl", TP)]);
   (u_sin_declination,
    [("dec_high_g", TG); ("dec_high_pl", TP); ("dec_low_g", TG); ("dec_low_pl", TP)]);
   (u_detection_time,
    [("detection_time_high_g", TG); ("detection_time_high_pl", TP); ("detection_time_low_g", TG);
     ("detection_time_low_pl", TP)]);
   (u_cos_iota,
    [("cos_iota_high_g", TG); ("cos_iota_high_pl", TP); ("cos_iota_low_g", TG);
     ("cos_iota_low_pl", TP)]);
   (u_polarization_angle,
    [("psi_high_g", TG); ("psi_high_pl", TP); ("psi_low_g", TG); ("psi_low_pl", TP)]);
   (u_phi_orb,
    [("phi_orb_high_g", TG); ("phi_orb_high_pl", TP); ("phi_orb_low_g", TG); ("phi_orb_low_pl", TP)])].
Lemma genie_params_blocks u N_pl N_g : genie_all_params u N_pl N_g
  = flat_map (fun k : (uses -> bool) * list (string * tag) => if fst k u then map (fun p => (fst p, count N_pl N_g (snd p))) (snd k) else []) genie_blocks.
Proof. unfold genie_all_params, genie_blocks. cbn [flat_map map fst snd count]. now rewrite app_nil_r. Qed.
Lemma in_extended u N_pl N_g n :
  In n (extended_params u N_pl N_g) <->
  exists name c i, In (name, c) (genie_all_params u N_pl N_g) /\ i < c /\ n = numbered name i.
Proof.
  unfold extended_params. rewrite in_flat_map. split.
  - intros ([name c] & H & Hi). unfold expand_arguments in Hi. apply in_map_iff in Hi as (i & <- & Hi).
    apply in_seq in Hi. exists name, c, i. cbn in Hi. repeat split; auto. lia.
  - intros (name & c & i & H & Hi & ->). exists (name, c). split; auto. cbn. unfold expand_arguments.
    apply in_map_iff. exists i. split; [apply numbered_decimal|apply in_seq; lia].
Qed.
Definition all_uses : uses :=
  Build_uses true true true true true true true true true true true true true true true true true true true true true.
Lemma genie_params_sub u N_pl N_g : sub (genie_all_params u N_pl N_g) (genie_all_params all_uses N_pl N_g).
Proof.
  unfold genie_all_params, all_uses.
  cbn [u_beta_spin_magnitude u_spin_magnitude_mixture u_truncated_normal_spin_x u_truncated_normal_spin_y
    u_truncated_normal_spin_z u_chi_eff_mixture u_skew_normal_chi_eff u_truncated_normal_chi_p u_tilt
    u_eccentricity_mixture u_redshift u_cos_iota u_phi_12 u_polarization_angle u_right_ascension
    u_sin_declination u_detection_time u_phi_1 u_phi_2 u_phi_orb u_mean_anomaly].
  apply sub_app; [apply sub_refl|]. repeat (apply sub_app; [apply sub_if|]). apply sub_if.
Qed.
Lemma genie_names_any N_pl N_g : map fst (genie_all_params all_uses N_pl N_g) = map fst (genie_all_params all_uses 0 0).
Proof. reflexivity. Qed.
Lemma genie_names_distinct u N_pl N_g : NoDup (extended_params u N_pl N_g).
Proof.
  apply expanded_distinct. apply (sub_NoDup _ (map fst (genie_all_params all_uses N_pl N_g))); [apply sub_map, genie_params_sub|].
  rewrite genie_names_any. apply distinctb_NoDup. vm_compute. reflexivity.
Qed.

Section GenieTotal.
Variables (u : uses) (N_pl N_g : nat) (params : params_t cval).
Hypothesis declared : forall n, In n (extended_params u N_pl N_g) -> exists v, dget params n = Some (Some v).
Definition gdeclared (k : (uses -> bool) * list (string * tag)) (t : tag) (rs : list (@read cval)) : bool :=
  forallb (fun r => negb (needed r) || memb (fst (fst r), t) (snd k)) rs.
Lemma genie_supplied n k t rs i :
  nth_error genie_blocks n = Some k -> fst k u = true -> gdeclared k t rs = true ->
  i < count N_pl N_g t -> List.Forall (supplied params i) rs.
Proof.
  intros Hk Hf Ha Hi. apply Forall_forall. intros [[name nec] dflt] Hr.
  unfold gdeclared in Ha. rewrite forallb_forall in Ha. specialize (Ha _ Hr). cbn in Ha.
  intros -> ->. cbn in Ha. apply memb_In in Ha.
  destruct (declared (numbered name i)) as (v & E).
  - apply in_extended. exists name, (count N_pl N_g t), i. split; auto.
    rewrite genie_params_blocks. apply in_flat_map. exists k. split; [eapply nth_error_In; eauto|].
    rewrite Hf. apply in_map_iff. exists (name, t). auto.
  - unfold given. rewrite E. discriminate.
Qed.
End GenieTotal.
Ltac gsupply D H t n :=
  apply create_total; intros i Hi;
  refine (genie_supplied _ _ _ _ D n _ t _ i eq_refl H _ Hi); vm_compute; reflexivity.
Ltac gsupply_any D H t :=
  first [ gsupply D H t 1 | gsupply D H t 2 | gsupply D H t 3 | gsupply D H t 4 | gsupply D H t 5 | gsupply D H t 6
        | gsupply D H t 7 | gsupply D H t 8 | gsupply D H t 9 | gsupply D H t 10 | gsupply D H t 11 | gsupply D H t 12
        | gsupply D H t 13 | gsupply D H t 14 | gsupply D H t 15 | gsupply D H t 16 | gsupply D H t 17
        | gsupply D H t 18 | gsupply D H t 19 | gsupply D H t 20 | gsupply D H t 21 ].
Ltac uses_cbn := cbn [u_beta_spin_magnitude u_spin_magnitude_mixture
    u_truncated_normal_spin_x u_truncated_normal_spin_y u_truncated_normal_spin_z u_chi_eff_mixture
    u_skew_normal_chi_eff u_truncated_normal_chi_p u_tilt u_eccentricity_mixture u_redshift u_cos_iota
    u_phi_12 u_polarization_angle u_right_ascension u_sin_declination u_detection_time u_phi_1 u_phi_2
    u_phi_orb u_mean_anomaly].
Section GenieModel.
Variables one zero : cval.
Lemma genie_entries_pl u N_pl N_g (params : params_t cval) :
  (forall n, In n (extended_params u N_pl N_g) -> exists v, dget params n = Some (Some v)) ->
  List.Forall (entry_total "pl" params N_pl) (info_collection one zero (model_uses u)).
Proof.
  intros D. unfold info_collection;
  repeat (apply Forall_cons; [|]); try apply Forall_nil;
  unfold entry_total, model_uses; uses_cbn; intros H; try discriminate; gsupply_any D H TP.
Qed.
Lemma genie_entries_g u N_pl N_g (params : params_t cval) :
  (forall n, In n (extended_params u N_pl N_g) -> exists v, dget params n = Some (Some v)) ->
  List.Forall (entry_total "g" params N_g) (info_collection one zero (model_uses u)).
Proof.
  intros D. unfold info_collection;
  repeat (apply Forall_cons; [|]); try apply Forall_nil;
  unfold entry_total, model_uses; uses_cbn; intros H; try discriminate; gsupply_any D H TG.
Qed.
Lemma genie_total u N_pl N_g (params : params_t cval) : 0 < N_pl + N_g ->
  (forall n, In n (extended_params u N_pl N_g) -> exists v, dget params n = Some (Some v)) ->
  exists m, n_powerlaw_m_gaussian one zero N_pl N_g (model_uses u) params = Some m.
Proof.
  intros Hp D. pose proof (genie_entries_pl u N_pl N_g params D) as TP'. pose proof (genie_entries_g u N_pl N_g params D) as TG'.
  assert (P : exists ps, build_pl_component_distributions one zero N_pl (model_uses u) params = Some ps).
  { unfold build_pl_component_distributions.
    assert (exists ps, create_powerlaw_primary_mass_ratios N_pl params = Some ps) as (ps & ->)
      by (gsupply D (eq_refl true) TP 0).
    now apply loop_total. }
  assert (G : exists gs, build_g_component_distributions one zero N_g (model_uses u) params = Some gs).
  { unfold build_g_component_distributions.
    assert (exists ps, create_truncated_normal_distributions N_g "m1" "g" params = Some ps) as (m1 & ->)
      by (gsupply D (eq_refl true) TG 0).
    assert (exists ps, create_truncated_normal_distributions N_g "m2" "g" params = Some ps) as (m2 & ->)
      by (gsupply D (eq_refl true) TG 0).
    now apply loop_total. }
  assert (R : exists rs, rates_of params (N_pl + N_g) = Some rs).
  { apply map_opt_total. intros i Hi. apply in_seq in Hi.
    destruct (D (numbered "log_rate" i)) as (v & E).
    - apply in_extended. exists "log_rate", (N_pl + N_g), i. split; [unfold genie_all_params; apply in_or_app; left; in_list|].
      split; [lia|reflexivity].
    - exists v. change ("log_rate_" ++ decimal i)%string with (numbered "log_rate" i). now rewrite E. }
  destruct P as (ps & P), G as (gs & G), R as (rs & R). unfold n_powerlaw_m_gaussian.
  fold (rates_of params (N_pl + N_g)). rewrite P, G, R.
  destruct N_pl, N_g; cbn [Nat.ltb Nat.leb Nat.eqb andb negb]; eauto. lia.
Qed.

Ltac gin_table H := unfold info_collection, model_uses; uses_cbn; rewrite H; in_list.
Definition chi_p_names : list string :=
  ["chi_p_high_g"; "chi_p_high_pl"; "chi_p_loc_g"; "chi_p_loc_pl"; "chi_p_low_g"; "chi_p_low_pl"; "chi_p_scale_g"; "chi_p_scale_pl"].
Lemma genie_reaches u N_pl N_g (params : params_t cval) m name c i v :
  n_powerlaw_m_gaussian one zero N_pl N_g (model_uses u) params = Some m ->
  In (name, c) (genie_all_params u N_pl N_g) -> ~ In name chi_p_names -> i < c ->
  dget params (numbered name i) = Some (Some v) -> reaches v m.
Proof.
  intros E B U Hi Hv. unfold genie_all_params in B.
  apply in_app_or in B as [B|B].
  { each B ltac:(first [ exact (reach_rate _ _ _ _ _ _ _ E _ _ Hi Hv)
      | refine (reach_mass_pl _ _ _ _ _ _ _ E _ _ _ _ Hi Hv); solve [in_list]
      | refine (reach_mass_g _ _ _ _ _ _ _ E _ _ _ "m1" "loc" _ _ _ Hi Hv); [in_list|in_list|reflexivity]
      | refine (reach_mass_g _ _ _ _ _ _ _ E _ _ _ "m2" "loc" _ _ _ Hi Hv); [in_list|in_list|reflexivity]
      | refine (reach_mass_g _ _ _ _ _ _ _ E _ _ _ "m1" "scale" _ _ _ Hi Hv); [in_list|in_list|reflexivity]
      | refine (reach_mass_g _ _ _ _ _ _ _ E _ _ _ "m2" "scale" _ _ _ Hi Hv); [in_list|in_list|reflexivity]
      | refine (reach_mass_g _ _ _ _ _ _ _ E _ _ _ "m1" "low" _ _ _ Hi Hv); [in_list|in_list|reflexivity]
      | refine (reach_mass_g _ _ _ _ _ _ _ E _ _ _ "m2" "low" _ _ _ Hi Hv); [in_list|in_list|reflexivity]
      | refine (reach_mass_g _ _ _ _ _ _ _ E _ _ _ "m1" "high" _ _ _ Hi Hv); [in_list|in_list|reflexivity]
      | refine (reach_mass_g _ _ _ _ _ _ _ E _ _ _ "m2" "high" _ _ _ Hi Hv); [in_list|in_list|reflexivity] ]). }
  apply in_app_or in B as [B|B].
  { block B (u_beta_spin_magnitude u)
      ltac:(fun H => let T0 := fresh "T" in assert (T0 : In (true, "a_1", (@create_beta_distributions cval)) (info_collection one zero (model_uses u))) by gin_table H; let T1 := fresh "T" in assert (T1 : In (true, "a_2", (@create_beta_distributions cval)) (info_collection one zero (model_uses u))) by gin_table H; each B ltac:(first [ try_entry E T0 Hi Hv | try_entry E T1 Hi Hv ])). }
  apply in_app_or in B as [B|B].
  { block B (u_spin_magnitude_mixture u)
      ltac:(fun H => let T0 := fresh "T" in assert (T0 : In (true, "a_1_a_2", (create_spin_magnitude_mixture_models one zero)) (info_collection one zero (model_uses u))) by gin_table H; each B ltac:(first [ try_entry E T0 Hi Hv ])). }
  apply in_app_or in B as [B|B].
  { block B (u_truncated_normal_spin_x u)
      ltac:(fun H => let T0 := fresh "T" in assert (T0 : In (true, "spin_1x", (@create_truncated_normal_distributions cval)) (info_collection one zero (model_uses u))) by gin_table H; let T1 := fresh "T" in assert (T1 : In (true, "spin_2x", (@create_truncated_normal_distributions cval)) (info_collection one zero (model_uses u))) by gin_table H; each B ltac:(first [ try_entry E T0 Hi Hv | try_entry E T1 Hi Hv ])). }
  apply in_app_or in B as [B|B].
  { block B (u_truncated_normal_spin_y u)
      ltac:(fun H => let T0 := fresh "T" in assert (T0 : In (true, "spin_1y", (@create_truncated_normal_distributions cval)) (info_collection one zero (model_uses u))) by gin_table H; let T1 := fresh "T" in assert (T1 : In (true, "spin_2y", (@create_truncated_normal_distributions cval)) (info_collection one zero (model_uses u))) by gin_table H; each B ltac:(first [ try_entry E T0 Hi Hv | try_entry E T1 Hi Hv ])). }
  apply in_app_or in B as [B|B].
  { block B (u_truncated_normal_spin_z u)
      ltac:(fun H => let T0 := fresh "T" in assert (T0 : In (true, "spin_1z", (@create_truncated_normal_distributions cval)) (info_collection one zero (model_uses u))) by gin_table H; let T1 := fresh "T" in assert (T1 : In (true, "spin_2z", (@create_truncated_normal_distributions cval)) (info_collection one zero (model_uses u))) by gin_table H; each B ltac:(first [ try_entry E T0 Hi Hv | try_entry E T1 Hi Hv ])). }
  apply in_app_or in B as [B|B].
  { block B (u_chi_eff_mixture u)
      ltac:(fun H => let T0 := fresh "T" in assert (T0 : In (true, "chi_eff", (@create_two_truncated_normal_mixture cval)) (info_collection one zero (model_uses u))) by gin_table H; each B ltac:(first [ try_entry E T0 Hi Hv ])). }
  apply in_app_or in B as [B|B].
  { block B (u_skew_normal_chi_eff u)
      ltac:(fun H => let T0 := fresh "T" in assert (T0 : In (true, "chi_eff", (@create_gwtc4_effective_spin_skew_normal_models cval)) (info_collection one zero (model_uses u))) by gin_table H; each B ltac:(first [ try_entry E T0 Hi Hv ])). }
  apply in_app_or in B as [B|B].
  { block B (u_truncated_normal_chi_p u) ltac:(fun H => each B ltac:(solve [exfalso; apply U; unfold chi_p_names; in_list])). }
  apply in_app_or in B as [B|B].
  { block B (u_tilt u)
      ltac:(fun H => let T0 := fresh "T" in assert (T0 : In (true, "cos_tilt_1_cos_tilt_2", (@create_independent_spin_orientation_gaussian_isotropic cval)) (info_collection one zero (model_uses u))) by gin_table H; each B ltac:(first [ try_entry E T0 Hi Hv ])). }
  apply in_app_or in B as [B|B].
  { block B (u_phi_1 u)
      ltac:(fun H => let T0 := fresh "T" in assert (T0 : In (true, "phi_1", (@create_uniform_distributions cval)) (info_collection one zero (model_uses u))) by gin_table H; each B ltac:(first [ try_entry E T0 Hi Hv ])). }
  apply in_app_or in B as [B|B].
  { block B (u_phi_2 u)
      ltac:(fun H => let T0 := fresh "T" in assert (T0 : In (true, "phi_2", (@create_uniform_distributions cval)) (info_collection one zero (model_uses u))) by gin_table H; each B ltac:(first [ try_entry E T0 Hi Hv ])). }
  apply in_app_or in B as [B|B].
  { block B (u_phi_12 u)
      ltac:(fun H => let T0 := fresh "T" in assert (T0 : In (true, "phi_12", (@create_uniform_distributions cval)) (info_collection one zero (model_uses u))) by gin_table H; each B ltac:(first [ try_entry E T0 Hi Hv ])). }
  apply in_app_or in B as [B|B].
  { block B (u_eccentricity_mixture u)
      ltac:(fun H => let T0 := fresh "T" in assert (T0 : In (true, "eccentricity", (@create_two_truncated_normal_mixture cval)) (info_collection one zero (model_uses u))) by gin_table H; each B ltac:(first [ try_entry E T0 Hi Hv ])). }
  apply in_app_or in B as [B|B].
  { block B (u_mean_anomaly u)
      ltac:(fun H => let T0 := fresh "T" in assert (T0 : In (true, "mean_anomaly", (@create_uniform_distributions cval)) (info_collection one zero (model_uses u))) by gin_table H; each B ltac:(first [ try_entry E T0 Hi Hv ])). }
  apply in_app_or in B as [B|B].
  { block B (u_redshift u)
      ltac:(fun H => let T0 := fresh "T" in assert (T0 : In (true, "redshift", (@create_powerlaw_redshift cval)) (info_collection one zero (model_uses u))) by gin_table H; each B ltac:(first [ try_entry E T0 Hi Hv ])). }
  apply in_app_or in B as [B|B].
  { block B (u_right_ascension u)
      ltac:(fun H => let T0 := fresh "T" in assert (T0 : In (true, "ra", (@create_uniform_distributions cval)) (info_collection one zero (model_uses u))) by gin_table H; each B ltac:(first [ try_entry E T0 Hi Hv ])). }
  apply in_app_or in B as [B|B].
  { block B (u_sin_declination u)
      ltac:(fun H => let T0 := fresh "T" in assert (T0 : In (true, "dec", (@create_uniform_distributions cval)) (info_collection one zero (model_uses u))) by gin_table H; each B ltac:(first [ try_entry E T0 Hi Hv ])). }
  apply in_app_or in B as [B|B].
  { block B (u_detection_time u)
      ltac:(fun H => let T0 := fresh "T" in assert (T0 : In (true, "detection_time", (@create_uniform_distributions cval)) (info_collection one zero (model_uses u))) by gin_table H; each B ltac:(first [ try_entry E T0 Hi Hv ])). }
  apply in_app_or in B as [B|B].
  { block B (u_cos_iota u)
      ltac:(fun H => let T0 := fresh "T" in assert (T0 : In (true, "cos_iota", (@create_uniform_distributions cval)) (info_collection one zero (model_uses u))) by gin_table H; each B ltac:(first [ try_entry E T0 Hi Hv ])). }
  apply in_app_or in B as [B|B].
  { block B (u_polarization_angle u)
      ltac:(fun H => let T0 := fresh "T" in assert (T0 : In (true, "psi", (@create_uniform_distributions cval)) (info_collection one zero (model_uses u))) by gin_table H; each B ltac:(first [ try_entry E T0 Hi Hv ])). }
  block B (u_phi_orb u)
      ltac:(fun H => let T0 := fresh "T" in assert (T0 : In (true, "phi_orb", (@create_uniform_distributions cval)) (info_collection one zero (model_uses u))) by gin_table H; each B ltac:(first [ try_entry E T0 Hi Hv ])).
Qed.
End GenieModel.
Lemma names_filter_chi_p u : u_truncated_normal_chi_p u = true ->
  parameters_name (model_uses u) = filter (fun n => negb (String.eqb n "chi_p")) (parameters_name u).
Proof.
  assert (W : forall (f : string -> bool) (b : bool) l, forallb f l = true -> filter f (if b then l else []) = if b then l else []).
  { intros f b l H. destruct b; [|reflexivity]. induction l as [|x l IH]; [reflexivity|]. cbn in *.
    apply andb_prop in H as [-> H]. now rewrite IH. }
  intros H. unfold parameters_name, model_uses. uses_cbn.
  rewrite H, !filter_app. rewrite !W by reflexivity. reflexivity.
Qed.
