(** Lemmas about the error functions of the generators. *)
From Coq Require Import String Reals List Bool Arith Lia Lra.
From Verif Require Import Model_X Model_Joint Model_Guru Model_Config Spec_Config Proofs_Guru Proofs_Config Model_Key Model_Errors
  Spec_Errors Props_Errors Model_Population Proofs_Population Model_NPLMG Spec_NPLMG Proofs_NPLMG Model_Genie Spec_Genie.
Import ListNotations.
Open Scope string_scope.
Open Scope nat_scope.

(** a name that no entry matches is read as null *)
Lemma absent_entry fullmatch c strings n : In n strings -> (forall k v, In (k, v) c -> k <> n) ->
  (forall k v, In (k, v) c -> fullmatch k n = false) -> dget (match_all fullmatch strings c) n = Some CNull.
Proof.
  intros Hn Hk Hp. rewrite pattern_entry; auto.
  - assert (first_match fullmatch c n = None) as ->; auto.
    clear -Hp. induction c as [|[p v] c IH]; simpl; auto.
    rewrite (Hp p v) by now left. apply IH. intros q w Hq. apply (Hp q w). now right.
  - intros v Hv. exfalso. clear Hp. induction c as [|[p w] c IH]; [discriminate|]. cbn in Hv.
    destruct (String.eqb_spec p n) as [->|]; [now apply (Hk n w); [left|]|].
    apply IH; auto. intros k v' H. apply (Hk k v'). now right.
Qed.
(** ** the registry *)
Definition key_of (p : reg_arg) : list string := match p with RStr s => [s] | RTuple l => l | _ => [] end.
Definition good_key (p : reg_arg) : Prop := match p with RStr _ | RTuple _ => True | _ => False end.
Lemma names_eqb_eq a b : names_eqb a b = true <-> a = b.
Proof.
  revert b. induction a as [|x a IH]; intros [|y b]; cbn; try (split; congruence).
  rewrite andb_true_iff, String.eqb_eq, IH. split; [intros [-> ->]; auto|intros [= -> ->]; auto].
Qed.
Lemma names_eqb_refl a : names_eqb a a = true.
Proof. now apply names_eqb_eq. Qed.
Lemma reg_set_new {M} (r : registry_t M) k m : ~ In k (map fst r) -> reg_set r k m = (r ++ [(k, m)])%list.
Proof.
  induction r as [|[k' v] r IH]; cbn; auto. intros H.
  destruct (names_eqb k' k) eqn:E; [apply names_eqb_eq in E; subst; tauto|]. rewrite IH; tauto.
Qed.
Lemma reg_get_set {M} (r : registry_t M) k m k' : reg_get (reg_set r k m) k' = if names_eqb k k' then Some m else reg_get r k'.
Proof.
  induction r as [|[q v] r IH]; cbn; auto.
  destruct (names_eqb q k) eqn:E; cbn.
  - apply names_eqb_eq in E. subst q. destruct (names_eqb k k'); auto.
  - rewrite IH. destruct (names_eqb q k') eqn:E'; auto. destruct (names_eqb k k') eqn:E''; auto.
    apply names_eqb_eq in E', E''. subst. now rewrite names_eqb_refl in E.
Qed.
Lemma reg_set_keys {M} (r : registry_t M) k m : In k (map fst r) -> map fst (reg_set r k m) = map fst r.
Proof.
  induction r as [|[q v] r IH]; cbn; [intros []|]. intros H. destruct (names_eqb q k) eqn:E; cbn; auto.
  rewrite IH; auto. destruct H as [->|H]; auto. now rewrite names_eqb_refl in E.
Qed.
Lemma register_all_app {M} (c1 c2 : list (reg_arg * M)) r :
  register_all (c1 ++ c2) r = match register_all c1 r with Some r' => register_all c2 r' | None => None end.
Proof.
  unfold register_all. rewrite fold_left_app. destruct (fold_left _ c1 (Some r)); auto.
  induction c2; cbn; auto.
Qed.
Lemma register_all_cons {M} p (m : M) c r : register_all ((p, m) :: c) r = match register r p m with Some r' => register_all c r' | None => None end.
Proof. change ((p, m) :: c) with ([(p, m)] ++ c)%list. now rewrite register_all_app. Qed.
Lemma register_all_distinct {M} (calls : list (reg_arg * M)) r :
  List.Forall (fun c => good_key (fst c)) calls ->
  NoDup (map fst r ++ map (fun c => key_of (fst c)) calls) ->
  register_all calls r = Some (r ++ map (fun c => (key_of (fst c), snd c)) calls)%list.
Proof.
  revert r. induction calls as [|[p m] c IH]; intros r G N.
  - now rewrite app_nil_r.
  - inversion G as [|? ? G1 G2]; subst. cbn [map fst snd] in *.
    pose proof (NoDup_remove _ _ _ N) as [N1 N2].
    assert (R : register r p m = Some (r ++ [(key_of p, m)])%list).
    { destruct p; cbn in G1; try tauto; cbn; f_equal; apply reg_set_new; intros H; apply N2, in_or_app; now left. }
    rewrite register_all_cons, R, IH; auto.
    + rewrite <- app_assoc. reflexivity.
    + rewrite map_app, <- app_assoc. cbn. exact N.
Qed.

(** ** the error functions *)
Lemma if_orb {A} (a b : bool) (l : list A) : a && b = false ->
  (if a || b then l else []) = ((if a then l else []) ++ (if b then l else []))%list.
Proof. destruct a, b; cbn; try discriminate; intros _; auto. now rewrite app_nil_r. Qed.
Lemma names_distinct_genie u : exclusive u -> NoDup (parameters_name u).
Proof.
  intros [H1 H2].
  apply (sub_NoDup _ (["mass_1_source"; "mass_2_source"] ++ ["a_1"; "a_2"] ++ ["spin_1x"; "spin_2x"] ++ ["spin_1y"; "spin_2y"]
    ++ ["spin_1z"; "spin_2z"] ++ ["chi_eff"] ++ ["chi_p"] ++ ["cos_tilt_1"; "cos_tilt_2"] ++ ["phi_1"] ++ ["phi_2"]
    ++ ["phi_12"] ++ ["eccentricity"] ++ ["mean_anomaly"] ++ ["redshift"] ++ ["ra"] ++ ["dec"] ++ ["detection_time"]
    ++ ["cos_iota"] ++ ["psi"] ++ ["phi_orb"])%list).
  - unfold parameters_name. rewrite (app_assoc (if u_beta_spin_magnitude u then _ else _)), <- (if_orb _ _ _ H1).
    rewrite (app_assoc (if u_chi_eff_mixture u then _ else _)), <- (if_orb _ _ _ H2).
    repeat (apply sub_app; [first [apply sub_refl|apply sub_if]|]). apply sub_if.
  - apply distinctb_NoDup. vm_compute. reflexivity.
Qed.
Lemma within_cuts sample cl ch scale size key fuel out : (forall k n, length (sample k n) = n) ->
  truncated_normal_error sample cl ch scale size key fuel = Returned out ->
  length out = size /\ List.Forall (acceptable cl ch) out.
Proof.
  intros Hl H. destruct (C75_within_cuts sample cl ch scale size key fuel out Hl H) as (A & B & _). auto.
Qed.
Section GenieErrors.
Variable truncated_normal : X -> cval -> cval -> cval -> rng -> nat -> list X.
Variable normal : X -> cval -> rng -> nat -> list X.
Variable banana_rows : list X -> nat -> rng -> cval -> cval -> list (list X).
Variable err : list (string * cval).
Notation calls := (register_calls truncated_normal normal banana_rows err).
Notation reg := (error_registry truncated_normal normal banana_rows err).

Lemma calls_good u : List.Forall (fun c => good_key (fst c)) (calls u).
Proof.
  unfold register_calls, when. rewrite !Forall_app.
  repeat match goal with |- _ /\ _ => split end;
  try match goal with |- context [if ?b then _ else _] => destruct b end;
  repeat constructor.
Qed.
Lemma concat_when (b : bool) (l : list (reg_arg * option genie_err)) :
  concat (map (fun c => key_of (fst c)) (when b l)) = if b then concat (map (fun c => key_of (fst c)) l) else [].
Proof. destruct b; auto. Qed.
Lemma calls_keys u : exclusive u -> concat (map (fun c => key_of (fst c)) (calls u)) = parameters_name u.
Proof.
  intros [H1 H2]. unfold register_calls, parameters_name.
  rewrite !map_app, !concat_app, !concat_when.
  rewrite if_orb by auto. rewrite <- !app_assoc. reflexivity.
Qed.
Lemma calls_nonempty u c : In c (calls u) -> key_of (fst c) <> [].
Proof.
  intros B. unfold register_calls, when in B.
  repeat (apply in_app_or in B as [B|B]; [try (match type of B with context [if ?b then _ else _] => destruct b end);
     repeat (destruct B as [<-|B]; [discriminate|]); destruct B|]).
  match type of B with context [if ?b then _ else _] => destruct b end;
     repeat (destruct B as [<-|B]; [discriminate|]); destruct B.
Qed.
Lemma NoDup_app_parts {A} (a b : list A) : NoDup (a ++ b) -> NoDup b /\ forall x, In x a -> ~ In x b.
Proof.
  induction a as [|y a IH]; cbn; intros N; [split; auto|]. inversion N as [|? ? N1 N2]; subst.
  destruct (IH N2) as [H1 H2]. split; auto. intros x [->|Hx]; auto. intros Hb. apply N1, in_or_app. auto.
Qed.
Lemma concat_NoDup_inv (l : list (list string)) : (forall k, In k l -> k <> []) -> NoDup (concat l) -> NoDup l.
Proof.
  induction l as [|k l IH]; intros H N; [constructor|]. cbn in N. apply NoDup_app_parts in N as [N D].
  constructor; [|apply IH; auto; intros; apply H; now right].
  intros Hk. destruct k as [|x k]; [now apply (H []); [left|]|].
  apply (D x); [now left|]. apply in_concat. exists (x :: k). split; auto. now left.
Qed.
(** every parameter is read from the file, so nothing is missing *)
Hypothesis read : uses.
Hypothesis complete_err : forall n, In n (err_params_name read) -> exists v, dget err n = Some v.
Lemma cut_fn l h p : In (p ++ "_scale") (err_params_name read) -> exists f, snd (cut truncated_normal err l h p) = Some f.
Proof. intros H. destruct (complete_err _ H) as (v & E). cbn. unfold truncated_error, err_item. rewrite E. cbn. eauto. Qed.
Lemma truncated_fn p cl ch : In (p ++ "_scale") (err_params_name read) -> exists f, truncated_error truncated_normal err p cl ch = Some f.
Proof. intros H. destruct (complete_err _ H) as (v & E). unfold truncated_error, err_item. rewrite E. cbn. eauto. Qed.
Lemma cuts_fn p : In (p ++ "_scale") (err_params_name read) -> exists f, truncated_error_cuts truncated_normal err p = Some f.
Proof.
  intros H. unfold truncated_error_cuts. destruct (complete_err _ H) as (v & E). unfold err_item at 1. rewrite E.
  destruct (cut_of (err_get err (p ++ "_cut_low"))), (cut_of (err_get err (p ++ "_cut_high"))); eauto. now apply truncated_fn.
Qed.
End GenieErrors.
Ltac err_name H := unfold err_params_name; rewrite ?H, ?orb_true_r; cbn [orb];
   repeat first [apply in_or_app; left; solve [in_list]|apply in_or_app; right|solve [in_list]].
Section GenieErrors2.
Variable truncated_normal : X -> cval -> cval -> cval -> rng -> nat -> list X.
Variable normal : X -> cval -> rng -> nat -> list X.
Variable banana_rows : list X -> nat -> rng -> cval -> cval -> list (list X).
Variable err : list (string * cval).
Notation calls := (register_calls truncated_normal normal banana_rows err).
Notation reg := (error_registry truncated_normal normal banana_rows err).
Lemma calls_fn u : (forall n, In n (err_params_name u) -> exists v, dget err n = Some v) ->
  forall c, In c (calls u) -> exists f, snd c = Some f.
Proof.
  intros D c B. unfold register_calls, when in B.
  do 20 (apply in_app_or in B as [B|B]; [try (match type of B with context [if ?b then _ else _] => destruct b eqn:H end);
     repeat (destruct B as [<-|B]; [first [eexists; reflexivity
       |refine (cut_fn _ _ _ D _ _ _ _); err_name H |refine (cuts_fn _ _ _ D _ _); err_name H
       |refine (truncated_fn _ _ _ D _ _ _ _); err_name H]|]); destruct B|]).
  match type of B with context [if ?b then _ else _] => destruct b end;
     repeat (destruct B as [<-|B]; [eexists; reflexivity|]); destruct B.
Qed.
Lemma map_opt_all {A B} (f : A -> option B) l : (forall a, In a l -> exists b, f a = Some b) -> exists r, map_opt f l = Some r.
Proof.
  induction l as [|a l IH]; cbn; eauto. intros H. destruct (H a) as (b & ->); auto.
  destruct IH as (r & ->); auto. cbn. eauto.
Qed.
Lemma map_opt_fst (l : list (reg_arg * option genie_err)) r : map_opt (fun c => option_map (pair (fst c)) (snd c)) l = Some r ->
  map fst r = map fst l /\ map (fun c => Some (snd c)) r = map snd l.
Proof.
  revert r. induction l as [|[p o] l IH]; cbn; intros r H; [now injection H as <-|].
  destruct o as [f|]; [|discriminate]. cbn in H. destruct (map_opt _ l) as [r'|] eqn:E; [|discriminate].
  injection H as <-. destruct (IH _ eq_refl) as [H1 H2]. cbn. now rewrite H1, H2.
Qed.
Definition as_calls (r : registry_t genie_err) : list (list string * option genie_err) := map (fun c => (fst c, Some (snd c))) r.
Lemma as_calls_eq (cs : list (reg_arg * genie_err)) : forall l : list (reg_arg * option genie_err),
  map fst cs = map fst l -> map (fun c => Some (snd c)) cs = map snd l ->
  as_calls ([] ++ map (fun c => (key_of (fst c), snd c)) cs)%list = map (fun c => (key_of (fst c), snd c)) l.
Proof.
  cbn [app]. induction cs as [|[p f] cs IH]; intros [|[q g] l] H1 H2; try discriminate; auto.
  cbn [map fst snd as_calls] in *. inversion H1; inversion H2; subst. f_equal. now apply IH.
Qed.
Lemma registry_some u : exclusive u -> forall cs,
  map_opt (fun c => option_map (pair (fst c)) (snd c)) (calls u) = Some cs ->
  exists r, reg u = Some r /\ as_calls r = map (fun c => (key_of (fst c), snd c)) (calls u).
Proof.
  intros X cs E. unfold error_registry. rewrite E. destruct (map_opt_fst _ _ E) as [H1 H2].
  assert (K : map (fun c => key_of (fst c)) cs = map (fun c => key_of (fst c)) (calls u)).
  { rewrite <- (map_map fst key_of), <- (map_map fst key_of (calls u)), H1. reflexivity. }
  rewrite register_all_distinct.
  - eexists. split; [reflexivity|]. now apply as_calls_eq.
  - pose proof (calls_good truncated_normal normal banana_rows err u) as G. rewrite Forall_forall in *. intros c Hc.
    assert (In (fst c) (map fst (calls u))) as Hf by (rewrite <- H1; now apply in_map).
    apply in_map_iff in Hf as (c' & <- & Hc'). now apply G.
  - cbn. rewrite K. apply concat_NoDup_inv.
    + intros k Hk. apply in_map_iff in Hk as (c & <- & Hc). eapply calls_nonempty; eauto.
    + rewrite calls_keys by auto. now apply names_distinct_genie.
Qed.
Lemma registry_total u : exclusive u -> (forall n, In n (err_params_name u) -> exists v, dget err n = Some v) ->
  exists r, reg u = Some r.
Proof.
  intros X D. destruct (map_opt_all (fun c => option_map (pair (fst c)) (snd c)) (calls u)) as (cs & E).
  { intros c Hc. destruct (calls_fn u D c Hc) as (f & ->). cbn. eauto. }
  destruct (registry_some u X cs E) as (r & H & _). eauto.
Qed.
Lemma registry_calls u r : exclusive u -> reg u = Some r -> as_calls r = map (fun c => (key_of (fst c), snd c)) (calls u).
Proof.
  intros X E. assert (exists cs, map_opt (fun c => option_map (pair (fst c)) (snd c)) (calls u) = Some cs) as (cs & Ec).
  { unfold error_registry in E. destruct (map_opt _ _); eauto. discriminate. }
  destruct (registry_some u X cs Ec) as (r' & E' & H). congruence.
Qed.
Lemma registry_keys u r : exclusive u -> reg u = Some r -> concat (map fst r) = parameters_name u.
Proof.
  intros X E. rewrite <- (calls_keys truncated_normal normal banana_rows err u X). f_equal.
  transitivity (map fst (as_calls r)); [unfold as_calls; now rewrite map_map|].
  rewrite (registry_calls u r X E), map_map. reflexivity.
Qed.

(** ** ranges *)
Hypothesis truncated_length : forall m s l h k n, length (truncated_normal m s l h k n) = n.
Hypothesis normal_length : forall m s k n, length (normal m s k n) = n.
Hypothesis banana_shape : forall x n k c e, length (banana_rows x n k c e) = n
  /\ forall r, In r (banana_rows x n k c e) -> length r = 2.
Definition good_output (names : list string) (g : genie_err) : Prop :=
  forall x size k fuel rows, g x size k fuel = Rows rows ->
  length rows = size /\ forall r, In r rows -> length r = length names
    /\ forall i p, nth_error names i = Some p -> nth i r NaN <> NaN -> physical p (nth i r NaN).
Lemma good_column p (g : genie_err) :
  (forall x size k fuel rows, g x size k fuel = Rows rows -> exists l, length l = size /\ rows = map (fun v => [v]) l
     /\ forall v, In v l -> v <> NaN -> physical p v) -> good_output [p] g.
Proof.
  intros H x size k fuel rows E. destruct (H _ _ _ _ _ E) as (l & L & -> & F). rewrite map_length. split; auto.
  intros r Hr. apply in_map_iff in Hr as (v & <- & Hv). split; auto.
  intros [|[|i]] q; cbn; try discriminate. intros [= <-]. auto.
Qed.
Lemma acceptable_between l h x : acceptable (Some (Fin l)) (Some (Fin h)) x -> x <> NaN -> between l h x.
Proof.
  intros [A B] N. specialize (A _ eq_refl). specialize (B _ eq_refl). destruct x as [r| | |]; cbn in *; try discriminate; try tauto.
  exists r. split; auto. unfold xltb in *. cbn in *.
  destruct (Rlt_dec r l), (Rlt_dec h r); try discriminate; lra.
Qed.
Lemma acceptable_from l x : acceptable (Some (Fin l)) None x -> x <> NaN -> at_least l x.
Proof.
  intros [A _] N. specialize (A _ eq_refl). destruct x as [r| | |]; cbn in *; try discriminate; try tauto.
  - right. exists r. split; auto. destruct (Rlt_dec r l); try discriminate; lra.
  - now left.
Qed.
Lemma truncated_column p cl ch g :
  (forall v, acceptable cl ch v -> v <> NaN -> physical p v) ->
  truncated_error truncated_normal err p cl ch = Some g -> good_output [p] g.
Proof.
  intros P E. unfold truncated_error in E. destruct (err_item err (p ++ "_scale")) as [scale|]; [|discriminate].
  cbn in E. injection E as <-. apply good_column. intros x size k fuel rows H. unfold column_of in H.
  destruct (truncated_normal_error _ _ _ _ _ _ _) as [| |out] eqn:T; try discriminate. injection H as <-.
  apply within_cuts in T as (L & F); [|intros; apply truncated_length].
  exists out. repeat split; auto. intros v Hv N. rewrite Forall_forall in F. apply P; auto.
Qed.
Lemma xmod_circle period v : (0 < period)%R -> xmod v period <> NaN -> on_circle period (xmod v period).
Proof.
  intros Hp. destruct v as [r| | |]; cbn; try tauto. intros _. eexists. split; [reflexivity|].
  destruct (base_Int_part (r / period)) as [A B].
  assert (C : (IZR (Int_part (r / period)) * period <= r)%R).
  { apply (Rmult_le_compat_r period) in A; [|lra]. replace (r / period * period)%R with r in A by (field; lra). exact A. }
  assert (D : (r - IZR (Int_part (r / period)) * period < period)%R).
  { assert (r / period < IZR (Int_part (r / period)) + 1)%R as B' by lra.
    apply (Rmult_lt_compat_r period) in B'; [|lra]. replace (r / period * period)%R with r in B' by (field; lra). lra. }
  lra.
Qed.
Lemma angle_column p period : (0 < period)%R -> (forall v, on_circle period v -> physical p v) ->
  good_output [p] (angle_error truncated_normal err p period).
Proof.
  intros Hp P. apply good_column. intros x size k fuel rows H. unfold angle_error in H.
  destruct (err_item err (p ++ "_scale")) as [scale|]; [|discriminate]. injection H as <-.
  exists (map (fun v => xmod v period) (truncated_normal (head x) scale (err_get_or err (p ++ "_low") (CNum (Fin 0%R)))
           (err_get_or err (p ++ "_high") (CNum (Fin period))) k size)).
  rewrite map_length, map_map. repeat split; auto.
  intros v Hv N. apply in_map_iff in Hv as (w & <- & _). apply P, xmod_circle; auto.
Qed.
Lemma detection_column : good_output ["detection_time"] (detection_time_error normal err).
Proof.
  apply good_column. intros x size k fuel rows H. unfold detection_time_error in H.
  destruct (err_item err "detection_time_scale") as [scale|]; [|discriminate]. injection H as <-.
  exists (map xexp (normal (xln (xmax (head x) (Fin (1 / 1000000)%R))) scale k size)).
  rewrite map_length, map_map. repeat split; auto.
  intros v Hv N. apply in_map_iff in Hv as (w & <- & _). destruct w as [r| | |]; cbn in *; try tauto.
  - right. eexists. split; [reflexivity|]. left. apply exp_pos.
  - now left.
  - right. eexists. split; [reflexivity|]. lra.
Qed.
Lemma masses_columns : good_output ["mass_1_source"; "mass_2_source"] (masses_error banana_rows err).
Proof.
  intros x size k fuel rows H. unfold masses_error in H.
  destruct (err_item err "scale_Mc") as [c|]; [|discriminate]. destruct (err_item err "scale_eta") as [e|]; [|discriminate].
  injection H as <-. destruct (banana_shape x size k c e) as [L F]. split; auto. intros r Hr. split; [now apply F|].
  intros [|[|i]] p; cbn; try (intros [= <-]; intros; exact I). now destruct i.
Qed.
Lemma cuts_column p g : dget range_table p = None -> truncated_error_cuts truncated_normal err p = Some g -> good_output [p] g.
Proof.
  intros T E. unfold truncated_error_cuts in E. assert (P : forall v, physical p v) by (intros; unfold physical; now rewrite T).
  destruct (err_item err (p ++ "_scale")); [|discriminate].
  destruct (cut_of (err_get err (p ++ "_cut_low"))), (cut_of (err_get err (p ++ "_cut_high")));
    try (injection E as <-; intros ? ? ? ? ?; discriminate).
  eapply truncated_column; eauto.
Qed.
Lemma calls_good_output u c g : In c (calls u) -> snd c = Some g -> good_output (key_of (fst c)) g.
Proof.
  pose proof PI_RGT_0 as Hpi.
  intros B. unfold register_calls, when in B.
  do 20 (apply in_app_or in B as [B|B]; [try (match type of B with context [if ?b then _ else _] => destruct b end);
     repeat (destruct B as [<-|B]; [cbn [snd fst key_of cut angle]; intros E; first
       [ refine (truncated_column _ _ _ _ _ E); intros v A N; first [exact (acceptable_between _ _ _ A N)|exact (acceptable_from _ _ A N)]
       | refine (cuts_column _ _ _ E); reflexivity
       | injection E as <-; first [apply masses_columns|apply detection_column|apply angle_column; [lra|intros v A; exact A]]]|]);
     destruct B|]).
  match type of B with context [if ?b then _ else _] => destruct b end; [|destruct B].
  destruct B as [<-|[]]. cbn. intros [= <-]. apply angle_column; [lra|intros v A; exact A].
Qed.
Lemma registry_good u r names g : exclusive u -> reg u = Some r -> In (names, g) r -> good_output names g.
Proof.
  intros X E H. pose proof (registry_calls u r X E) as C.
  assert (In (names, Some g) (as_calls r)) as Hc by (unfold as_calls; apply in_map_iff; exists (names, g); auto).
  rewrite C in Hc. apply in_map_iff in Hc as (c & Ec & Hc). injection Ec as <- Es. eapply calls_good_output; eauto.
Qed.
End GenieErrors2.

(** ** columns of the registered parameters *)
Section Heads.
Variables (ps : list string) (registry : list (list string * (list X -> nat -> rng -> list (list X)))).
Hypothesis covers : concat (map fst registry) = ps.
Hypothesis distinct : NoDup ps.
Definition head_of (rg : list string * (list X -> nat -> rng -> list (list X))) (hg : list nat * (list X -> nat -> rng -> list (list X))) : Prop :=
  map_opt (index_of ps) (fst rg) = Some (fst hg) /\ snd hg = snd rg.
Lemma heads_some l : (forall n, In n (concat (map fst l)) -> In n ps) -> exists hs, heads ps l = Some hs /\ List.Forall2 head_of l hs.
Proof.
  unfold heads. induction l as [|[names f] l IH]; cbn [map_opt map concat fst snd]; intros H; [exists []; auto|].
  destruct (map_opt_all (index_of ps) names) as (h & E).
  { intros n Hn. apply index_of_in, H, in_or_app. auto. }
  destruct IH as (hs & -> & F); [intros; apply H, in_or_app; auto|]. rewrite E. cbn.
  eexists. split; [reflexivity|]. constructor; auto. split; auto.
Qed.
Lemma positions names h : map_opt (index_of ps) names = Some h -> map (fun i => nth i ps EmptyString) h = names.
Proof.
  revert h. induction names as [|n names IH]; cbn; intros h E; [now injection E as <-|].
  destruct (index_of ps n) as [i|] eqn:Ei; [|discriminate]. destruct (map_opt _ names) as [h'|]; [|discriminate].
  injection E as <-. cbn. rewrite (IH h'); auto. f_equal. now apply index_of_lt.
Qed.
Lemma heads_concat l hs : List.Forall2 head_of l hs -> map (fun i => nth i ps EmptyString) (concat (map fst hs)) = concat (map fst l).
Proof.
  induction 1 as [|[names f] [h f'] l hs [E _] _ IH]; cbn; auto. cbn in E. rewrite map_app, IH. f_equal. now apply positions.
Qed.
Lemma heads_all : exists hs, heads ps registry = Some hs /\ List.Forall2 head_of registry hs /\ NoDup (concat (map fst hs))
  /\ forall i, i < length ps -> In i (concat (map fst hs)).
Proof.
  destruct (heads_some registry) as (hs & E & F); [intros n; now rewrite covers|]. exists hs. split; [auto|]. split; [auto|].
  pose proof (heads_concat _ _ F) as C. rewrite covers in C. split.
  - eapply NoDup_map_inv. rewrite C. exact distinct.
  - intros i Hi. assert (In (nth i ps EmptyString) (map (fun i => nth i ps EmptyString) (concat (map fst hs)))) as H
      by (rewrite C; now apply nth_In).
    apply in_map_iff in H as (j & Ej & Hj). enough (j = i) by congruence.
    assert (Lj : j < length ps).
    { apply in_concat in Hj as (h & Hh & Hj). apply in_map_iff in Hh as ([h' f] & <- & Hh).
      clear -F Hh Hj. induction F as [|[names g] [h2 f2] l hs [E _] _ IH]; [destruct Hh|].
      destruct Hh as [[= -> ->]|Hh]; auto. cbn in E, Hj. clear -E Hj. revert h' E Hj.
      induction names as [|n names IH]; cbn; intros h E Hj; [injection E as <-; destruct Hj|].
      destruct (index_of ps n) as [i|] eqn:Ei; [|discriminate]. destruct (map_opt _ names) as [h'|]; [|discriminate].
      injection E as <-. destruct Hj as [<-|Hj]; [now apply index_of_lt in Ei|eauto]. }
    eapply (proj1 (NoDup_nth ps EmptyString)); eauto.
Qed.
End Heads.
