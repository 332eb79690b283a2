(** C131: a command runs the analysis that its options describe. *)
From Coq Require Import String Ascii List ZArith Bool Lia.
From Verif Require Import Model_NPLMG Spec_NPLMG Model_Smoothed Spec_Smoothed Model_Command Spec_Command Proofs_Command.
Import ListNotations.
Open Scope string_scope.

Section Options.
Variable int_of : string -> option Z.
Variable float_ok : string -> bool.

Lemma uses_of_none o us : ~ used o us <-> uses_of o us = [].
Proof.
  unfold used, uses_of. induction us as [|(n, vs) us IH]; cbn [map fst filter In]; [tauto|].
  destruct (String.eqb_spec n o) as [->|Hne]; cbn [map].
  - split; [intros H; exfalso; apply H; auto|discriminate].
  - rewrite <- IH. tauto.
Qed.
Lemma uses_of_in o us vs : In vs (uses_of o us) <-> In (o, vs) us.
Proof.
  unfold uses_of. rewrite in_map_iff. split.
  - intros ((n, vs') & E & H). cbn [snd] in E. subst vs'. apply filter_In in H. destruct H as [H E].
    apply String.eqb_eq in E. cbn in E. subst n. exact H.
  - intros H. exists (o, vs). split; [reflexivity|]. apply filter_In. split; [exact H|apply String.eqb_refl].
Qed.
Lemma last_in {A : Type} (l : list A) d : l <> [] -> In (last l d) l.
Proof.
  induction l as [|x l IH]; intros H; [congruence|]. destruct l as [|y l]; [left; reflexivity|].
  right. apply IH. discriminate.
Qed.
Lemma asked_some rs us r : acceptable int_of float_ok rs us -> In r rs -> r_reading r <> Texts ->
  (~ used (r_opt r) us /\ asked int_of float_ok r us = r_omitted r) \/
  (used (r_opt r) us /\ exists vs, In (r_opt r, vs) us /\ last (uses_of (r_opt r) us) [] = vs /\
     value_of int_of float_ok (r_reading r) vs = Some (asked int_of float_ok r us)).
Proof.
  intros (Hv & _) Hr Hk. unfold asked. destruct (uses_of (r_opt r) us) as [|x l] eqn:E.
  - left. split; [apply uses_of_none; exact E|destruct (r_reading r); reflexivity].
  - right. assert (Hu : used (r_opt r) us).
    { destruct (in_dec string_dec (r_opt r) (map fst us)) as [H|H]; [exact H|]. apply uses_of_none in H. congruence. }
    split; [exact Hu|]. exists (last (x :: l) []).
    assert (Hl : In (r_opt r, last (x :: l) []) us).
    { apply uses_of_in. rewrite E. apply last_in. discriminate. }
    repeat split; [exact Hl|]. specialize (Hv r _ Hr Hl eq_refl). cbn [snd] in Hv.
    destruct (r_reading r); try congruence; destruct (value_of int_of float_ok _ (last (x :: l) [])); congruence.
Qed.
Definition used_b (o : string) (us : list use) : bool := existsb (String.eqb o) (map fst us).
Lemma used_b_spec o us : used_b o us = true <-> used o us.
Proof. apply existsb_eqb_in. Qed.
Lemma asked_switch rs us o s : acceptable int_of float_ok rs us -> In (switch_row o s) rs ->
  asked int_of float_ok (switch_row o s) us = VBool (used_b o us).
Proof.
  intros Ha Hr. destruct (asked_some rs us _ Ha Hr) as [[Hu ->]|(Hu & vs & _ & _ & Hv)]; [discriminate| |].
  - cbn. f_equal. cbn in Hu. rewrite <- used_b_spec in Hu. destruct (used_b o us); congruence.
  - cbn [r_opt switch_row] in Hu. apply used_b_spec in Hu. rewrite Hu.
    cbn [r_reading switch_row value_of] in Hv. destruct vs; [|discriminate]. injection Hv as <-. reflexivity.
Qed.
Lemma asked_int rs us r z : acceptable int_of float_ok rs us -> In r rs -> r_reading r = Integer -> r_omitted r = VInt z ->
  exists z', asked int_of float_ok r us = VInt z'.
Proof.
  intros Ha Hr Hk Hz. destruct (asked_some rs us r Ha Hr) as [[Hu ->]|(Hu & vs & _ & _ & Hv)]; [congruence|eauto|].
  rewrite Hk in Hv. cbn in Hv. destruct vs as [|s [|? ?]]; try discriminate.
  destruct (int_of s) as [z'|]; [|discriminate]. injection Hv as <-. eauto.
Qed.
Lemma seed_in_rows c : In seed_row (rows c).
Proof. each_command c; cbn; tauto. Qed.
Lemma beta_in_rows c r : beta_row c = Some r -> In r (rows c) /\ r = switch_row "--add-beta-spin-magnitude" (r_setting r).
Proof. each_command c; try discriminate; intros H; injection H as <-; cbn; tauto. Qed.
Lemma asked_switches c us : acceptable int_of float_ok (rows c) us -> switches_good c (fun r => asked int_of float_ok r us).
Proof.
  intros Ha. unfold switches_good. destruct (beta_row c) as [r|] eqn:E; [|exact I].
  destruct (beta_in_rows c r E) as [Hr Hs]. rewrite Hs. rewrite Hs in Hr. eexists. exact (asked_switch _ _ _ _ Ha Hr).
Qed.
Lemma seed_allowed_good c us : acceptable int_of float_ok (rows c) us ->
  (seed_allowed int_of float_ok c us <-> seed_good c (asked int_of float_ok seed_row us) = true).
Proof.
  intros Ha. destruct (asked_int _ _ seed_row 37 Ha (seed_in_rows c) eq_refl eq_refl) as [z Hz].
  unfold seed_allowed, seed_good. fold seed_row. rewrite Hz.
  assert (H : (exists z0, VInt z = VInt z0 /\ (0 <= z0)%Z) <-> (0 <=? z)%Z = true).
  { rewrite Z.leb_le. split; [intros (z0 & E & H); injection E as ->; exact H|intros H; exists z; auto]. }
  destruct c; try exact H; tauto.
Qed.
Lemma run_good c us argv : written (rows c) us argv -> acceptable int_of float_ok (rows c) us -> seed_allowed int_of float_ok c us ->
  exists obj, run int_of float_ok c argv = Some obj /\
    (forall r, In r (rows c) -> ~ idle_option c (r_opt r) -> get obj (r_setting r) = Some (asked int_of float_ok r us)) /\
    (map (fun kv => get obj (fst kv)) (analysis c) = map (fun kv => Some (VStr (snd kv))) (analysis c)) /\
    match spin_check c, beta_row c with
    | Some w, Some r => get obj "where_fns" = Some (if beta_used (asked int_of float_ok r us) then VStr w else VNone)
    | _, _ => True
    end.
Proof.
  intros Hw Ha Hs. destruct (run_written int_of float_ok c us argv Hw) as [[_ E]|[H _]]; [|contradiction].
  rewrite E. apply main_settings; [apply asked_switches; exact Ha|]. apply seed_allowed_good; assumption.
Qed.
Lemma run_bad c us argv : written (rows c) us argv ->
  ~ (acceptable int_of float_ok (rows c) us /\ seed_allowed int_of float_ok c us) -> run int_of float_ok c argv = None.
Proof.
  intros Hw Hn. destruct (run_written int_of float_ok c us argv Hw) as [[Ha E]|[_ E]]; [|exact E].
  rewrite E. destruct (is_genie c) eqn:Eg.
  { exfalso. apply Hn. split; [exact Ha|]. destruct c; try discriminate Eg; exact I. }
  apply main_negative; [apply asked_switches; exact Ha|exact Eg|].
  destruct (asked_int _ _ seed_row 37 Ha (seed_in_rows c) eq_refl eq_refl) as [z Hz]. rewrite Hz.
  destruct z as [|z|z]; [| |exists z; reflexivity]; exfalso; apply Hn; (split; [exact Ha|]);
    (apply seed_allowed_good; [exact Ha|]); rewrite Hz; destruct c; reflexivity.
Qed.

(** a command line is accepted exactly if it can be read as uses of the documented options, whose values are
    readable, with the needed options, without two exclusive ones, and with a seed that is not negative *)
Theorem C131_accepts : forall c argv,
  (exists obj, run int_of float_ok c argv = Some obj) <->
  (exists us, written (rows c) us argv /\ acceptable int_of float_ok (rows c) us /\ seed_allowed int_of float_ok c us).
Proof.
  intros c argv. split.
  - intros (obj & H). destruct (run_is_written int_of float_ok c argv obj H) as (us & Hw). exists us. split; [exact Hw|].
    destruct (run_written int_of float_ok c us argv Hw) as [[Ha E]|[_ E]]; [|congruence]. split; [exact Ha|].
    assert (Hd : seed_allowed int_of float_ok c us \/ ~ seed_allowed int_of float_ok c us).
    { rewrite (seed_allowed_good c us Ha). destruct (seed_good c (asked int_of float_ok seed_row us)); [left; reflexivity|right; discriminate]. }
    destruct Hd as [Hd|Hd]; [exact Hd|]. rewrite (run_bad c us argv Hw) in H by tauto. discriminate.
  - intros (us & Hw & Ha & Hs). destruct (run_good c us argv Hw Ha Hs) as (obj & H & _). eauto.
Qed.
Lemma accepted_uses c us argv obj : run int_of float_ok c argv = Some obj -> written (rows c) us argv ->
  acceptable int_of float_ok (rows c) us /\
    (forall r, In r (rows c) -> ~ idle_option c (r_opt r) -> get obj (r_setting r) = Some (asked int_of float_ok r us)) /\
    (map (fun kv => get obj (fst kv)) (analysis c) = map (fun kv => Some (VStr (snd kv))) (analysis c)) /\
    match spin_check c, beta_row c with
    | Some w, Some r => get obj "where_fns" = Some (if beta_used (asked int_of float_ok r us) then VStr w else VNone)
    | _, _ => True
    end.
Proof.
  intros H Hw. destruct (run_written int_of float_ok c us argv Hw) as [[Ha E]|[_ E]]; [|congruence].
  assert (Hd : seed_allowed int_of float_ok c us \/ ~ seed_allowed int_of float_ok c us).
  { rewrite (seed_allowed_good c us Ha). destruct (seed_good c (asked int_of float_ok seed_row us)); [left; reflexivity|right; discriminate]. }
  destruct Hd as [Hd|Hd]; [|rewrite (run_bad c us argv Hw) in H by tauto; discriminate].
  destruct (run_good c us argv Hw Ha Hd) as (obj' & H' & Hrest). assert (obj' = obj) by congruence. subst obj'. split; assumption.
Qed.

(** every option but the one that is ignored reaches the setting it is for *)
Theorem C131_settings : forall c us argv obj r,
  run int_of float_ok c argv = Some obj -> written (rows c) us argv ->
  In r (rows c) -> ~ idle_option c (r_opt r) -> get obj (r_setting r) = Some (asked int_of float_ok r us).
Proof. intros c us argv obj r H Hw Hr Hi. apply (accepted_uses c us argv obj H Hw); assumption. Qed.

(** the command decides on the population model, the name and the likelihood; the check of the spin magnitudes is on
    exactly if they follow a beta distribution *)
Theorem C131_analysis : forall c us argv obj,
  run int_of float_ok c argv = Some obj -> written (rows c) us argv ->
  (forall k v, In (k, v) (analysis c) -> get obj k = Some (VStr v)) /\
  (forall w, spin_check c = Some w ->
     (used "--add-beta-spin-magnitude" us -> get obj "where_fns" = Some (VStr w)) /\
     (~ used "--add-beta-spin-magnitude" us -> get obj "where_fns" = Some VNone)).
Proof.
  intros c us argv obj H Hw. destruct (accepted_uses c us argv obj H Hw) as (Ha & _ & H3 & H4). split.
  - revert H3. generalize (analysis c) as l. induction l as [|x l IH]; [intros _ k v []|]. intros E k v [->|Hin]; cbn [map] in E.
    + injection E as E _. exact E.
    + injection E as _ E. apply IH; assumption.
  - intros w Hwc. rewrite Hwc in H4.
    assert (Hb : exists r, beta_row c = Some r) by (each_command c; try discriminate Hwc; eexists; reflexivity).
    destruct Hb as [r Hb]. rewrite Hb in H4. destruct (beta_in_rows c r Hb) as [Hr Hs]. rewrite Hs in Hr, H4.
    rewrite (asked_switch _ _ _ _ Ha Hr) in H4. cbn [beta_used] in H4.
    split; intros Hu; rewrite H4.
    + apply used_b_spec in Hu. rewrite Hu. reflexivity.
    + rewrite <- used_b_spec in Hu. destruct (used_b "--add-beta-spin-magnitude" us); [congruence|reflexivity].
Qed.

(** neither the order of the options nor their spelling matters, as long as the uses of each option stay in order *)
Theorem C131_order : forall c us us' argv argv',
  written (rows c) us argv -> written (rows c) us' argv' -> (forall o, uses_of o us = uses_of o us') ->
  run int_of float_ok c argv = run int_of float_ok c argv'.
Proof.
  intros c us us' argv argv' Hw Hw' Hsame.
  assert (Hin : forall u, In u us <-> In u us').
  { intros [o vs]. rewrite <- !uses_of_in, Hsame. reflexivity. }
  assert (Hused : forall o, In o (map fst us) <-> In o (map fst us')).
  { intros o. rewrite !in_map_iff. split; intros (u & E & Hu); exists u; (split; [exact E|]); apply Hin; exact Hu. }
  assert (Hacc : acceptable int_of float_ok (rows c) us <-> acceptable int_of float_ok (rows c) us').
  { unfold acceptable. split; intros (H1 & H2 & H3); (split; [|split]).
    - intros r u Hr Hu. apply H1; [exact Hr|apply Hin; exact Hu].
    - intros r Hr Hn. apply Hused, H2; assumption.
    - intros a b Hab [X Y]. apply (H3 a b Hab). split; apply Hused; assumption.
    - intros r u Hr Hu. apply H1; [exact Hr|apply Hin; exact Hu].
    - intros r Hr Hn. apply Hused, H2; assumption.
    - intros a b Hab [X Y]. apply (H3 a b Hab). split; apply Hused; assumption. }
  destruct (run_written int_of float_ok c us argv Hw) as [[Ha E]|[Ha E]],
           (run_written int_of float_ok c us' argv' Hw') as [[Ha' E']|[Ha' E']]; try tauto.
  - rewrite E, E'. f_equal. unfold namespace. apply map_ext. intros r. f_equal. unfold asked. rewrite Hsame. reflexivity.
  - congruence.
Qed.

(** the flowMC and the NumPyro command of an analysis accept the same command lines and configure the same analysis,
    but for the likelihood and the name of the analysis *)
Theorem C131_backends : forall (C : backend -> command) argv,
  In C [SageNpl; SageO3; SageO4; SageEcc] ->
  (run int_of float_ok (C FlowMC) argv = None <-> run int_of float_ok (C Numpyro) argv = None) /\
  forall obj obj', run int_of float_ok (C FlowMC) argv = Some obj -> run int_of float_ok (C Numpyro) argv = Some obj' ->
  forall k, k <> "likelihood_fn" -> k <> "analysis_name" -> get obj k = get obj' k.
Proof.
  intros C argv HC.
  assert (Hrows : rows (C FlowMC) = rows (C Numpyro)) by (destruct HC as [<-|[<-|[<-|[<-|[]]]]]; reflexivity).
  assert (Hseed : forall us, seed_allowed int_of float_ok (C FlowMC) us <-> seed_allowed int_of float_ok (C Numpyro) us)
    by (intros us; destruct HC as [<-|[<-|[<-|[<-|[]]]]]; reflexivity).
  assert (Hb : backend_of (C FlowMC) = Some C) by (destruct HC as [<-|[<-|[<-|[<-|[]]]]]; reflexivity).
  split.
  - assert (Hacc : (exists obj, run int_of float_ok (C FlowMC) argv = Some obj) <-> (exists obj, run int_of float_ok (C Numpyro) argv = Some obj)).
    { rewrite !C131_accepts, Hrows. split; intros (us & H1 & H2 & H3); exists us; (split; [exact H1|split; [exact H2|apply Hseed; exact H3]]). }
    destruct (run int_of float_ok (C FlowMC) argv) as [o|], (run int_of float_ok (C Numpyro) argv) as [o'|]; try tauto.
    + split; intros X; discriminate X.
    + split; [intros X; discriminate X|]. destruct (proj1 Hacc (ex_intro _ o eq_refl)) as [x Hx]. discriminate Hx.
    + split; [|intros X; discriminate X]. destruct (proj2 Hacc (ex_intro _ o' eq_refl)) as [x Hx]. discriminate Hx.
  - intros obj obj' H H' k Hk1 Hk2. destruct (run_is_written int_of float_ok _ argv obj H) as (us & Hw).
    assert (Hw' : written (rows (C Numpyro)) us argv) by (rewrite <- Hrows; exact Hw).
    destruct (accepted_uses _ us argv obj H Hw) as (Ha & _).
    assert (Hs : seed_allowed int_of float_ok (C FlowMC) us).
    { assert (Hd : seed_allowed int_of float_ok (C FlowMC) us \/ ~ seed_allowed int_of float_ok (C FlowMC) us).
      { rewrite (seed_allowed_good _ us Ha). destruct (seed_good (C FlowMC) (asked int_of float_ok seed_row us)); [left; reflexivity|right; discriminate]. }
      destruct Hd as [Hd|Hd]; [exact Hd|]. rewrite (run_bad _ us argv Hw) in H by tauto. discriminate. }
    destruct (run_written int_of float_ok _ us argv Hw) as [[_ E]|[_ E]]; [|congruence].
    destruct (run_written int_of float_ok _ us argv Hw') as [[_ E']|[_ E']]; [|congruence].
    pose proof (main_backends (C FlowMC) (fun r => asked int_of float_ok r us) (asked_switches _ us Ha)
      (proj1 (seed_allowed_good _ us Ha) Hs) C FlowMC Numpyro Hb) as X.
    rewrite <- Hrows in E'. rewrite <- E, <- E', H, H' in X. cbn [option_map] in X. injection X as X.
    assert (Hd : differs k = false).
    { unfold differs. destruct (String.eqb_spec k "likelihood_fn"), (String.eqb_spec k "analysis_name"); try contradiction; reflexivity. }
    rewrite <- (get_filter obj k Hd), <- (get_filter obj' k Hd), X. reflexivity.
Qed.

Lemma switch_used c us argv obj o s : run int_of float_ok c argv = Some obj -> written (rows c) us argv ->
  In (switch_row o s) (rows c) -> switch obj s = used_b o us.
Proof.
  intros H Hw Hr. destruct (accepted_uses c us argv obj H Hw) as (Ha & Hset & _).
  assert (Hi : ~ idle_option c o).
  { intros Hi. destruct c; try exact Hi; cbn [idle_option] in Hi; subst o; cbn in Hr;
      repeat (destruct Hr as [Hr|Hr]; [discriminate Hr|]); exact Hr. }
  unfold switch. rewrite (Hset (switch_row o s) Hr Hi : get obj s = _). rewrite (asked_switch _ _ _ _ Ha Hr). reflexivity.
Qed.
Lemma in_rows_find (l : list row) s r : find (fun r => String.eqb (r_setting r) s) l = Some r -> In r l.
Proof. intros H. apply (find_some _ _ H). Qed.
Lemma in_if (b : bool) (l : list string) q : In q (if b then l else []) <-> b = true /\ In q l.
Proof. destruct b; cbn; intuition discriminate. Qed.
Ltac read_switches l Hsw := repeat match goal with |- context [switch _ ?s] =>
  let o := eval vm_compute in (match find (fun r => String.eqb (r_setting r) s) l with Some r => r_opt r | None => "" end) in
  rewrite (Hsw o s (in_rows_find l s (switch_row o s) eq_refl)) end.
Ltac to_options := repeat match goal with
    | H : _ \/ _ |- _ => destruct H as [H|H]
    | H : _ /\ _ |- _ => destruct H as [H ?]
    end; try (left; cbn [In] in *; tauto); right; eexists; eexists; (split; [eassumption|]);
    (split; [cbn [adds In]; repeat (first [left; reflexivity|right])|assumption]).
Lemma npl_parameters us obj q : (forall o s, In (switch_row o s) npl_rows -> switch obj s = used_b o us) ->
  (In q (parameters (npl_flags obj)) <->
   In q ["mass_1_source"; "mass_2_source"] \/ exists o qs, used o us /\ In (o, qs) adds /\ In q qs).
Proof.
  intros Hsw. unfold parameters; cbn [npl_flags has_beta_spin_magnitude use_spin_magnitude_mixture
    has_truncated_normal_spin_x has_truncated_normal_spin_y has_truncated_normal_spin_z use_chi_eff_mixture
    use_skew_normal_chi_eff use_truncated_normal_chi_p has_tilt use_eccentricity_mixture has_redshift has_cos_iota
    has_phi_12 has_polarization_angle has_right_ascension has_sin_declination has_detection_time].
  read_switches npl_rows Hsw.
  clear Hsw; rewrite !in_app_iff, !in_if, !orb_true_iff, !used_b_spec.
  split; [intros H; to_options|intros [H|(o & qs & Ho & Hin & Hq)]; [tauto|]].
  cbn [adds In] in Hin. repeat (destruct Hin as [Hin|Hin]; [injection Hin as <- <-; tauto|]). contradiction.
Qed.
Definition smoothed_switch_rows : list row := skipn 2 (smoothed_rows "" "").
Lemma smoothed_parameters us obj q :
  (forall o s, In (switch_row o s) smoothed_switch_rows -> switch obj s = used_b o us) ->
  (forall o, used o us -> In o (map fst adds) -> In o (map r_opt smoothed_switch_rows)) ->
  (In q (s_parameters (smoothed_flags obj)) <->
   In q ["mass_1_source"; "mass_ratio"] \/ exists o qs, used o us /\ In (o, qs) adds /\ In q qs).
Proof.
  intros Hsw Hrow. unfold s_parameters; cbn [smoothed_flags sf_beta_spin_magnitude sf_spin_magnitude_mixture sf_chi_eff_mixture
    sf_skew_normal_chi_eff sf_truncated_normal_chi_p sf_tilt sf_eccentricity_mixture sf_redshift].
  read_switches smoothed_switch_rows Hsw.
  clear Hsw; rewrite !in_app_iff, !in_if, !orb_true_iff, !used_b_spec.
  split; [intros H; to_options|intros [H|(o & qs & Ho & Hin & Hq)]; [cbn [In] in H |- *; tauto|]].
  specialize (Hrow o Ho (in_map fst _ _ Hin)).
  cbn [adds In] in Hin. repeat (destruct Hin as [Hin|Hin]; [injection Hin as <- <-; first [tauto|
    exfalso; cbn in Hrow; repeat (destruct Hrow as [Hrow|Hrow]; [discriminate Hrow|]); exact Hrow]|]). contradiction.
Qed.
(** the events have the masses and what the options add *)
Theorem C131_parameters : forall c us argv obj q,
  run int_of float_ok c argv = Some obj -> written (rows c) us argv -> masses c <> [] ->
  (In q (event_parameters c obj) <->
   In q (masses c) \/ exists o qs, used o us /\ In (o, qs) adds /\ In q qs).
Proof.
  intros c us argv obj q H Hw Hm.
  assert (Hrow : forall o, used o us -> In o (map r_opt (rows c))).
  { intros o Ho. unfold used in Ho. apply in_map_iff in Ho. destruct Ho as (u & <- & Hu).
    destruct (written_rows (rows c) us argv Hw u Hu) as (r & Hr & ->). apply in_map. exact Hr. }
  assert (Hsw : forall o s, In (switch_row o s) (rows c) -> switch obj s = used_b o us)
    by (intros o s; apply (switch_used c us argv obj o s H Hw)).
  clear H Hw. unfold event_parameters.
  destruct c as [b|b|b|b| | | |]; try (exfalso; apply Hm; reflexivity); clear Hm; cbn [masses].
  1,4: apply npl_parameters; intros o s Hin; apply Hsw; cbn [rows]; rewrite !in_app_iff; tauto.
  all: apply smoothed_parameters; [intros o s Hin; apply Hsw; cbn [rows]; rewrite !in_app_iff; left; right; right; exact Hin|].
  all: intros o Ho Hadds; specialize (Hrow o Ho); apply existsb_eqb_in in Hrow; apply existsb_eqb_in.
  all: match type of Hrow with existsb _ (map r_opt (rows ?c)) = true =>
    assert (F : forallb (fun o => negb (existsb (String.eqb o) (map r_opt (rows c))) || existsb (String.eqb o) (map r_opt smoothed_switch_rows))
                  (map fst adds) = true) by (destruct b; vm_compute; reflexivity) end.
  all: rewrite forallb_forall in F; specialize (F o Hadds); cbv beta in F; rewrite Hrow in F; exact F.
Qed.

(** two features that exclude each other are never on together *)
Theorem C131_compatible : forall c us argv obj,
  run int_of float_ok c argv = Some obj -> written (rows c) us argv ->
  match c with
  | SageNpl _ | MonkNpl => compatible (npl_flags obj)
  | SageO3 _ | SageO4 _ => s_compatible (smoothed_flags obj)
  | _ => True
  end.
Proof.
  intros c us argv obj H Hw. destruct (accepted_uses c us argv obj H Hw) as ((_ & _ & Hex) & _).
  assert (Hsw : forall o s, In (switch_row o s) (rows c) -> switch obj s = used_b o us)
    by (intros o s; apply (switch_used c us argv obj o s H Hw)).
  assert (H1 : used_b "--add-beta-spin-magnitude" us && used_b "--add-spin-magnitude-mixture" us = false).
  { apply not_true_iff_false. rewrite andb_true_iff, !used_b_spec. apply Hex. left. reflexivity. }
  assert (H2 : used_b "--add-chi-eff-mixture" us && used_b "--add-skew-normal-chi-eff" us = false).
  { apply not_true_iff_false. rewrite andb_true_iff, !used_b_spec. apply Hex. right. left. reflexivity. }
  clear H Hw Hex.
  destruct c as [b|b|b|b| | | |]; try exact I;
    (split; cbn [npl_flags smoothed_flags has_beta_spin_magnitude use_spin_magnitude_mixture use_chi_eff_mixture
       use_skew_normal_chi_eff sf_beta_spin_magnitude sf_spin_magnitude_mixture sf_chi_eff_mixture sf_skew_normal_chi_eff];
     match type of Hsw with forall o s, In _ (rows ?c) -> _ => read_switches (rows c) Hsw end; assumption).
Qed.

(** the numbers of components are those given; without them the model cannot be set up *)
Theorem C131_counts : forall c us argv obj a b,
  run int_of float_ok c argv = Some obj -> written (rows c) us argv -> count_options c = Some (a, b) ->
  (component_counts c obj = None <-> ~ (used a us /\ used b us)) /\
  forall n m, component_counts c obj = Some (n, m) ->
    exists s t, last (uses_of a us) [] = [s] /\ last (uses_of b us) [] = [t] /\ int_of s = Some n /\ int_of t = Some m.
Proof.
  intros c us argv obj a b H Hw Hc. destruct (accepted_uses c us argv obj H Hw) as (Ha & Hset & _).
  set (ra := Row a Integer match c with SageO4 _ => "N_bpl" | _ => "N_pl" end VNone false).
  set (rb := Row b Integer "N_g" VNone false).
  assert (Hra : In ra (rows c)) by (each_command c; try discriminate Hc; injection Hc as <- <-; cbn; tauto).
  assert (Hrb : In rb (rows c)) by (each_command c; try discriminate Hc; injection Hc as <- <-; cbn; tauto).
  assert (Hia : ~ idle_option c a) by (destruct c; try discriminate Hc; injection Hc as <- <-; cbn; intuition discriminate).
  assert (Hib : ~ idle_option c b) by (destruct c; try discriminate Hc; injection Hc as <- <-; cbn; intuition discriminate).
  pose proof (Hset ra Hra Hia) as Ea. pose proof (Hset rb Hrb Hib) as Eb. cbn [r_setting ra rb] in Ea, Eb.
  unfold component_counts. rewrite Ea, Eb.
  assert (Hone : forall r, In r (rows c) -> r_reading r = Integer -> r_omitted r = VNone ->
    (~ used (r_opt r) us /\ asked int_of float_ok r us = VNone) \/
    (used (r_opt r) us /\ exists s z, last (uses_of (r_opt r) us) [] = [s] /\ int_of s = Some z /\ asked int_of float_ok r us = VInt z)).
  { intros r Hr Hk Ho. destruct (asked_some _ us r Ha Hr) as [[Hu Hv]|(Hu & vs & _ & Hl & Hv)]; [congruence|left; split; congruence|].
    right. split; [exact Hu|]. rewrite Hk in Hv. cbn in Hv. destruct vs as [|s [|? ?]]; try discriminate Hv.
    destruct (int_of s) as [z|] eqn:Ez; [|discriminate Hv]. injection Hv as Hv. exists s, z. auto. }
  destruct (Hone ra Hra eq_refl eq_refl) as [[Hu Eu]|(Hu & s & z & Hl & Hz & Eu)];
    destruct (Hone rb Hrb eq_refl eq_refl) as [[Hu' Eu']|(Hu' & s' & z' & Hl' & Hz' & Eu')];
    rewrite Eu, ?Eu'; clear Ea Eb Eu Eu'; cbn [r_opt ra rb] in *.
  1,2,3: split; [split; [tauto|reflexivity]|discriminate].
  split; [split; [discriminate|tauto]|]. intros n m E. injection E as <- <-. exists s, s'. auto.
Qed.
End Options.

(** ** what is false *)
(** not every analysis that is started can be set up: the numbers of components may be left out *)
Theorem C131_counts_refuted : forall int_of float_ok,
  exists argv obj, run int_of float_ok (SageNpl FlowMC) argv = Some obj /\ component_counts (SageNpl FlowMC) obj = None.
Proof.
  intros int_of float_ok. exists ["--sampler-config"; "sampler.json"; "--data-loader-cfg"; "loader.json"]. eexists.
  split; vm_compute; reflexivity.
Qed.
(** the Monk analyses accept a threshold for the variance and do not use it *)
Theorem C131_variance_cut_refuted : forall int_of float_ok, float_ok "0.5" = true ->
  exists argv us obj, written (rows MonkEcc) us argv /\ run int_of float_ok MonkEcc argv = Some obj /\
    In ("--variance-cut-threshold", ["0.5"]) us /\ get obj "variance_cut_threshold" = Some VNone.
Proof.
  intros int_of float_ok Hf.
  exists ["--sampler-config=s.json"; "--data-filename=d.json"; "--variance-cut-threshold=0.5"],
    [("--sampler-config", ["s.json"]); ("--data-filename", ["d.json"]); ("--variance-cut-threshold", ["0.5"])].
  assert (Hw : written (rows MonkEcc) [("--sampler-config", ["s.json"]); ("--data-filename", ["d.json"]); ("--variance-cut-threshold", ["0.5"])]
     ["--sampler-config=s.json"; "--data-filename=d.json"; "--variance-cut-threshold=0.5"]).
  { apply (written_cons _ (Row "--sampler-config" Text "sampler_settings_filename" VNone true) _ _ ["--sampler-config=s.json"]);
      [cbn; tauto|reflexivity|apply (piece_inline _ Text "--sampler-config" "--sampler-config" "s.json"); [discriminate|split; [cbn; tauto|left; reflexivity]]|].
    apply (written_cons _ (Row "--data-filename" Text "data_filename" VNone true) _ _ ["--data-filename=d.json"]);
      [cbn; tauto|reflexivity|apply (piece_inline _ Text "--data-filename" "--data-filename" "d.json"); [discriminate|split; [cbn; tauto|left; reflexivity]]|].
    apply (written_cons _ (Row "--variance-cut-threshold" Number "variance_cut_threshold" VNone false) _ _ ["--variance-cut-threshold=0.5"]);
      [cbn; tauto|reflexivity|apply (piece_inline _ Number "--variance-cut-threshold" "--variance-cut-threshold" "0.5"); [discriminate|split; [cbn; tauto|left; reflexivity]]|].
    constructor. }
  destruct (run_written int_of float_ok MonkEcc _ _ Hw) as [[Ha E]|[Hn _]].
  - eexists. split; [exact Hw|]. split; [rewrite E; vm_compute; reflexivity|]. split; [right; right; left; reflexivity|vm_compute; reflexivity].
  - exfalso. apply Hn. split; [|split].
    + intros r u Hr Hu En. destruct Hu as [<-|[<-|[<-|[]]]]; cbn [fst] in En; cbn in Hr;
        repeat (destruct Hr as [<-|Hr]; [first [discriminate En|cbn; rewrite ?Hf; discriminate]|]); destruct Hr.
    + intros r Hr Hneed. cbn in Hr. repeat (destruct Hr as [<-|Hr]; [first [discriminate Hneed|cbn; tauto]|]). destruct Hr.
    + intros a b Hab. cbn in Hab. destruct Hab as [Hab|[Hab|[]]]; injection Hab as <- <-; cbn; intuition discriminate.
Qed.

(** ** a concrete case: abbreviations, an equals sign, a repeated option *)
Definition ex_int (s : string) : option Z :=
  if String.eqb s "1" then Some 1%Z else if String.eqb s "2" then Some 2%Z else if String.eqb s "-3" then Some (-3)%Z else None.
Definition ex_float (s : string) : bool := String.eqb s "2.5".
Example C131_nonvacuous :
  (exists obj, run ex_int ex_float (SageO3 Numpyro) ["--sampler-config"; "sampler.json"; "--n-pl"; "1"; "--n-g=2"; "--data-load"; "loader.json";
     "--add-ti"; "--thr"; "2.5"; "--n-pl"; "2"; "--add-beta-spin-magnitude"] = Some obj /\
     get obj "N_pl" = Some (VInt 2) /\ get obj "N_g" = Some (VInt 2) /\ get obj "threshold" = Some (VFloat "2.5") /\
     get obj "seed" = Some (VInt 37) /\ get obj "data_loader" = Some (VStr "loader.json") /\
     event_parameters (SageO3 Numpyro) obj = ["mass_1_source"; "a_1"; "a_2"; "cos_tilt_1"; "cos_tilt_2"; "mass_ratio"]) /\
  run ex_int ex_float (SageO3 Numpyro) ["--sampler-config"; "sampler.json"; "--data-load"; "loader.json"; "--seed"; "-3"] = None /\
  run ex_int ex_float (SageO3 Numpyro) ["--sampler-config"; "sampler.json"; "--data-load"; "loader.json"; "--add-be"; "--add-spin"] = None /\
  run ex_int ex_float (SageO3 Numpyro) ["--sampler-config"; "sampler.json"] = None /\
  written (rows (SageO3 Numpyro)) [("--n-g", ["2"]); ("--threshold", ["2.5"])] ["--n-g=2"; "--thr"; "2.5"].
Proof.
  split; [eexists; split; [vm_compute; reflexivity|repeat split; vm_compute; reflexivity]|].
  split; [vm_compute; reflexivity|]. split; [vm_compute; reflexivity|]. split; [vm_compute; reflexivity|].
  apply (written_cons _ (Row "--n-g" Integer "N_g" VNone false) _ _ ["--n-g=2"]);
    [cbn; tauto|reflexivity|apply (piece_inline _ Integer "--n-g" "--n-g" "2"); [discriminate|split; [cbn; tauto|left; reflexivity]]|].
  apply (written_cons _ (Row "--threshold" Number "threshold" (VFloat "3.0") false) _ _ ["--thr"; "2.5"]); [cbn; tauto|reflexivity| |constructor].
  apply piece_next; [tauto| |left; reflexivity]. split; [cbn; tauto|]. right. repeat split; [discriminate|].
  intros o' Ho' Hp. cbn in Ho'. repeat (destruct Ho' as [<-|Ho']; [first [reflexivity|vm_compute in Hp; discriminate Hp]|]). destruct Ho'.
Qed.
Print Assumptions C131_accepts.
Print Assumptions C131_settings.
Print Assumptions C131_analysis.
Print Assumptions C131_order.
Print Assumptions C131_backends.
Print Assumptions C131_parameters.
Print Assumptions C131_compatible.
Print Assumptions C131_counts.
Print Assumptions C131_counts_refuted.
Print Assumptions C131_variance_cut_refuted.
