(** C105: the settings of the error functions. *)
From Coq Require Import String Reals List Bool Arith Lia Lra.
From Verif Require Import Model_X Model_Joint Model_Guru Model_Config Spec_Config Proofs_Guru Proofs_Config Model_Key Model_Errors
  Spec_Errors Model_Population Spec_Population Proofs_Population Props_Population Model_NPLMG Spec_NPLMG Proofs_NPLMG Model_Genie Spec_Genie
  Proofs_Genie Proofs_GenieErrors.
Import ListNotations.
Open Scope string_scope.
Open Scope nat_scope.
From Verif Require Import Props_Genie.

(** the scale and the bounds that the file gives for a parameter are those its errors are drawn with *)
Inductive kind := KMasses | KTime | KTruncated (lo hi : option X) | KCuts | KAngle (period : R).
Definition kinds (u : uses) : list (reg_arg * kind) :=
  let cut l h p := (RStr p, KTruncated (Some (Fin l)) (Some (Fin h))) in
  ([(RTuple ["mass_1_source"; "mass_2_source"], KMasses)]
   ++ when (u_beta_spin_magnitude u || u_spin_magnitude_mixture u) [cut 0%R 1%R "a_1"; cut 0%R 1%R "a_2"]
   ++ when (u_truncated_normal_spin_x u) [cut (-1)%R 1%R "spin_1x"; cut (-1)%R 1%R "spin_2x"]
   ++ when (u_truncated_normal_spin_y u) [cut (-1)%R 1%R "spin_1y"; cut (-1)%R 1%R "spin_2y"]
   ++ when (u_truncated_normal_spin_z u) [cut (-1)%R 1%R "spin_1z"; cut (-1)%R 1%R "spin_2z"]
   ++ when (u_chi_eff_mixture u) [(RStr "chi_eff", KCuts)]
   ++ when (u_skew_normal_chi_eff u) [(RStr "chi_eff", KCuts)]
   ++ when (u_truncated_normal_chi_p u) [(RStr "chi_p", KCuts)]
   ++ when (u_tilt u) [cut (-1)%R 1%R "cos_tilt_1"; cut (-1)%R 1%R "cos_tilt_2"]
   ++ when (u_phi_1 u) [(RStr "phi_1", KAngle (2 * PI))]
   ++ when (u_phi_2 u) [(RStr "phi_2", KAngle (2 * PI))]
   ++ when (u_phi_12 u) [(RStr "phi_12", KAngle (2 * PI))]
   ++ when (u_eccentricity_mixture u) [cut 0%R 1%R "eccentricity"]
   ++ when (u_mean_anomaly u) [(RStr "mean_anomaly", KAngle (2 * PI))]
   ++ when (u_redshift u) [(RStr "redshift", KTruncated (Some (Fin (1 / 1000)%R)) None)]
   ++ when (u_right_ascension u) [(RStr "ra", KAngle (2 * PI))]
   ++ when (u_sin_declination u) [cut (-1)%R 1%R "dec"]
   ++ when (u_detection_time u) [(RStr "detection_time", KTime)]
   ++ when (u_cos_iota u) [cut (-1)%R 1%R "cos_iota"]
   ++ when (u_polarization_angle u) [(RStr "psi", KAngle PI)]
   ++ when (u_phi_orb u) [(RStr "phi_orb", KAngle (2 * PI))])%list.
Definition kind_fn truncated_normal normal banana_rows err (c : reg_arg * kind) : option genie_err :=
  match c with
  | (RStr p, KTruncated lo hi) => truncated_error truncated_normal err p lo hi
  | (RStr p, KCuts) => truncated_error_cuts truncated_normal err p
  | (RStr p, KAngle period) => Some (angle_error truncated_normal err p period)
  | (_, KTime) => Some (detection_time_error normal err)
  | _ => Some (masses_error banana_rows err)
  end.
Lemma calls_kinds tn no ba err u :
  register_calls tn no ba err u = map (fun c => (fst c, kind_fn tn no ba err c)) (kinds u).
Proof.
  assert (W : forall b l, map (fun c => (fst c, kind_fn tn no ba err c)) (when b l) = when b (map (fun c => (fst c, kind_fn tn no ba err c)) l))
    by (intros [|] l; reflexivity).
  unfold register_calls, kinds. cbv zeta. rewrite !map_app, !W. reflexivity.
Qed.
Definition settings_of (c : reg_arg * kind) : list string :=
  match c with
  | (_, KMasses) => ["scale_Mc"; "scale_eta"]
  | (_, KTime) => ["detection_time_scale"]
  | (RStr p, _) => [p ++ "_scale"; p ++ "_low"; p ++ "_high"]
  | _ => []
  end.
Lemma settings_read u c n : In c (kinds u) -> In n (settings_of c) -> In n (err_params_name u).
Proof.
  intros B. revert n. unfold kinds, when in B. cbv zeta in B.
  do 20 (apply in_app_or in B as [B|B]; [try (match type of B with context [if ?b then _ else _] => destruct b eqn:H end);
     repeat (destruct B as [<-|B]; [intros n Hn; repeat (destruct Hn as [<-|Hn]; [err_name H|]); destruct Hn|]); destruct B|]).
  match type of B with context [if ?b then _ else _] => destruct b eqn:H end;
     repeat (destruct B as [<-|B]; [intros n Hn; repeat (destruct Hn as [<-|Hn]; [err_name H|]); destruct Hn|]); destruct B.
Qed.
Lemma kinds_shape u c : In c (kinds u) ->
  (c = (RTuple ["mass_1_source"; "mass_2_source"], KMasses)) \/ (c = (RStr "detection_time", KTime))
  \/ exists p, fst c = RStr p /\ snd c <> KMasses /\ snd c <> KTime.
Proof.
  intros B. unfold kinds, when in B. cbv zeta in B.
  do 20 (apply in_app_or in B as [B|B]; [try (match type of B with context [if ?b then _ else _] => destruct b end);
     repeat (destruct B as [<-|B]; [first [left; reflexivity|right; left; reflexivity
       |right; right; eexists; split; [reflexivity|split; discriminate]]|]); destruct B|]).
  match type of B with context [if ?b then _ else _] => destruct b end;
     repeat (destruct B as [<-|B]; [right; right; eexists; split; [reflexivity|split; discriminate]|]); destruct B.
Qed.
Theorem C105_settings :
  forall fullmatch truncated_normal truncated_normal' normal banana_rows u p err_json scale low high, exclusive u ->
  In p (parameters_name u) -> ~ In p ["mass_1_source"; "mass_2_source"; "detection_time"] ->
  dget err_json (p ++ "_scale") = Some scale -> dget err_json (p ++ "_low") = Some low -> dget err_json (p ++ "_high") = Some high ->
  (forall v, In v [scale; low; high] -> truthy v = true /\ forall t, v <> CStr t) ->
  (* two samplers that agree for this scale and these bounds, and may do anything else for others *)
  (forall m k n, truncated_normal m scale low high k n = truncated_normal' m scale low high k n) ->
  exists registry registry' f f',
    error_registry truncated_normal normal banana_rows (match_all fullmatch (err_params_name u) err_json) u = Some registry
    /\ error_registry truncated_normal' normal banana_rows (match_all fullmatch (err_params_name u) err_json) u = Some registry'
    /\ In ([p], f) registry /\ In ([p], f') registry'
    /\ forall x size key fuel, f x size key fuel = f' x size key fuel.
Proof.
  intros fm tn tn' no ba u p json sc lo hi X Hp Np Es El Eh Tv A.
  assert (Ts : truthy sc = true /\ forall t, sc <> CStr t) by (apply Tv; in_list).
  assert (Tl : truthy lo = true /\ forall t, lo <> CStr t) by (apply Tv; in_list).
  assert (Th : truthy hi = true /\ forall t, hi <> CStr t) by (apply Tv; in_list).
  set (err := match_all fm (err_params_name u) json).
  assert (Tot : forall n, In n (err_params_name u) -> exists v, dget err n = Some v) by (intros n Hn; now apply match_all_total).
  destruct (registry_total tn no ba err u X Tot) as (r & E). destruct (registry_total tn' no ba err u X Tot) as (r' & E').
  pose proof (registry_calls tn no ba err u r X E) as C. pose proof (registry_calls tn' no ba err u r' X E') as C'.
  rewrite calls_kinds, map_map in C, C'. cbn [fst snd] in C, C'.
  rewrite <- (registry_keys tn no ba err u r X E) in Hp. apply in_concat in Hp as (k & Hk & Hp).
  apply in_map_iff in Hk as ((k0 & f) & Ek & Hf). cbn in Ek. subst k0.
  assert (In (k, Some f) (as_calls r)) as Hc by (unfold as_calls; apply in_map_iff; exists (k, f); split; auto).
  rewrite C in Hc. apply in_map_iff in Hc as (c & Ec & Hc). injection Ec as Ek Ef.
  destruct (kinds_shape u c Hc) as [->|[->|(q & Eq & N1 & N2)]].
  { exfalso. apply Np. subst k. cbn in Hp. cbn. tauto. }
  { exfalso. apply Np. subst k. cbn in Hp. cbn. tauto. }
  destruct c as [a kd]. cbn [fst snd] in *. subst a. cbn in Ek. subst k. destruct Hp as [->|[]].
  assert (Rd : forall n, In n [p ++ "_scale"; p ++ "_low"; p ++ "_high"] -> In n (err_params_name u)).
  { intros n Hn. apply (settings_read u (RStr p, kd) n Hc). destruct kd; auto; contradiction. }
  assert (Xs : dget err (p ++ "_scale") = Some sc) by (apply exact_entry; try tauto; apply Rd; in_list).
  assert (Xl : dget err (p ++ "_low") = Some lo) by (apply exact_entry; try tauto; apply Rd; in_list).
  assert (Xh : dget err (p ++ "_high") = Some hi) by (apply exact_entry; try tauto; apply Rd; in_list).
  assert (Agree : forall g g', kind_fn tn no ba err (RStr p, kd) = Some g -> kind_fn tn' no ba err (RStr p, kd) = Some g' ->
     forall x size key fuel, g x size key fuel = g' x size key fuel).
  { assert (T : forall cl ch g g', truncated_error tn err p cl ch = Some g -> truncated_error tn' err p cl ch = Some g' ->
       forall x size key fuel, g x size key fuel = g' x size key fuel).
    { unfold truncated_error, err_item, err_get. rewrite Xs, Xl, Xh. cbn [option_map]. intros cl ch g g' [= <-] [= <-] x size key fuel.
      f_equal. unfold truncated_normal_error. destruct (present sc); [|reflexivity]. rewrite A.
      assert (R : forall fuel key err0, resample (tn (head x) sc lo hi) cl ch fuel key err0 = resample (tn' (head x) sc lo hi) cl ch fuel key err0).
      { clear -A. induction fuel as [|fuel IH]; intros key err0; cbn [resample]; destruct (existsb _ _); auto. cbv zeta. rewrite A. apply IH. }
      destruct cl, ch; try reflexivity; now rewrite R. }
    intros g g'. destruct kd as [| |cl ch| |period]; try contradiction; cbn [kind_fn].
    - apply T.
    - unfold truncated_error_cuts, err_item. rewrite Xs. destruct (cut_of (err_get err (p ++ "_cut_low"))), (cut_of (err_get err (p ++ "_cut_high"))); try apply T; congruence.
    - intros [= <-] [= <-] x size key fuel. unfold angle_error, err_item, err_get_or. rewrite Xs, Xl, Xh. now rewrite A. }
  assert (exists f', kind_fn tn' no ba err (RStr p, kd) = Some f') as (f' & Ef').
  { destruct (calls_fn tn' no ba err u Tot (RStr p, kind_fn tn' no ba err (RStr p, kd))) as (f' & Ef'); [|eauto].
    rewrite calls_kinds. apply in_map_iff. exists (RStr p, kd). split; auto. }
  exists r, r', f, f'. split; [exact E|]. split; [exact E'|]. split; [exact Hf|]. split; [|now apply Agree].
  assert (In ([p], Some f') (as_calls r')) as Hc'.
  { rewrite C'. apply in_map_iff. exists (RStr p, kd). split; [cbn [key_of fst]; now rewrite Ef'|exact Hc]. }
  unfold as_calls in Hc'. apply in_map_iff in Hc' as ([k1 f1] & E1 & Hin). cbn in E1. injection E1 as <- <-. exact Hin.
Qed.
Print Assumptions C105_settings.

(** the angle between the spin projections, with a scale and both bounds in the file *)
Example C105_settings_nonvacuous :
  let json := [("phi_12_scale", COther true); ("phi_12_low", CNum (Fin 1%R)); ("phi_12_high", COther true)] in
  exclusive (ex_uses true) /\ In "phi_12" (parameters_name (ex_uses true))
  /\ ~ In "phi_12" ["mass_1_source"; "mass_2_source"; "detection_time"]
  /\ dget json ("phi_12" ++ "_scale") = Some (COther true) /\ dget json ("phi_12" ++ "_low") = Some (CNum (Fin 1%R))
  /\ (forall v, In v [COther true; CNum (Fin 1%R); COther true] -> truthy v = true /\ forall t, v <> CStr t).
Proof.
  cbv zeta. split; [split; vm_compute; reflexivity|]. split; [vm_compute; tauto|].
  split; [cbn; intros [H|[H|[H|[]]]]; discriminate|]. split; [reflexivity|]. split; [reflexivity|].
  assert (T : truthy (CNum (Fin 1%R)) = true) by (cbn; destruct (Req_EM_T 1 0); [lra|reflexivity]).
  intros v [<-|[<-|[<-|[]]]]; split; try discriminate; auto.
Qed.
