From Coq Require Import Decimal DecimalString.
From Coq Require Import String Ascii List Bool Arith Lia.
From Verif Require Import Model_X Model_Joint Model_Guru Model_Config Spec_Config Proofs_Guru Proofs_Config
  Model_NPLMG Spec_NPLMG Proofs_NPLMG Model_Smoothed Spec_Smoothed.
Import ListNotations.
Open Scope string_scope.
Open Scope nat_scope.

(** ** names *)
Lemma prefix_app a b : String.prefix a (a ++ b) = true.
Proof. induction a; simpl; [now destruct b|]. destruct (ascii_dec a a); congruence. Qed.
Lemma prefix_numbered a i : String.prefix a (numbered a i) = true.
Proof. apply prefix_app. Qed.
(** [n] cannot be confused with a popped name *)
Definition clean (scalars : list string) (n : string) : bool :=
  negb (String.prefix "lambda" n) && forallb (fun s => negb (String.prefix n s)) scalars.
Lemma clean_spec scalars n i : clean scalars n = true ->
  ~ In (numbered n i) scalars /\ ~ In n scalars
  /\ (forall j, n <> numbered "lambda" j) /\ (forall j, numbered n i <> numbered "lambda" j).
Proof.
  unfold clean. rewrite andb_true_iff, negb_true_iff, forallb_forall. intros [H1 H2]. repeat split.
  - intros H. specialize (H2 _ H). rewrite negb_true_iff, prefix_numbered in H2. discriminate.
  - intros H. specialize (H2 _ H). rewrite negb_true_iff in H2. pose proof (prefix_app n "") as P.
    assert (n ++ "" = n)%string as X by (clear; induction n; simpl; congruence). rewrite X in P. congruence.
  - intros j ->. rewrite prefix_numbered in H1. discriminate.
  - intros j E. apply numbered_inj2 in E as [-> _]. discriminate.
Qed.

Lemma Forall2_mono {A B} (P Q : A -> B -> Prop) a b : (forall x y, In x a -> P x y -> Q x y) ->
  List.Forall2 P a b -> List.Forall2 Q a b.
Proof. intros H F. induction F; constructor; [apply H; [now left|auto]|]. apply IHF. intros. apply H; [now right|auto]. Qed.

Lemma Forall2_same_length {A B} (P : A -> B -> Prop) a b : List.Forall2 P a b -> length a = length b.
Proof. induction 1; cbn; auto. Qed.

Section Build.
Context {V : Type}.
Variables one zero minus_one : V.
Variable complement : list V -> V.
Implicit Types params : params_t V.
Notation fields := (list (string * list (@read V))).
Notation table := (list (kind * fields)).

(** ** params.pop *)
Lemma dget_filter params k k' : k' <> k ->
  dget (filter (fun p => negb (String.eqb (fst p) k)) params) k' = dget params k'.
Proof.
  intros N. induction params as [|[a x] t IH]; cbn; auto. destruct (String.eqb_spec a k) as [->|Na]; cbn.
  - rewrite IH. destruct (String.eqb_spec k k'); congruence.
  - now rewrite IH.
Qed.
Lemma dget_filter_same params k : dget (filter (fun p => negb (String.eqb (fst p) k)) params) k = None.
Proof.
  induction params as [|[a x] t IH]; cbn; auto. destruct (String.eqb_spec a k) as [->|Na]; cbn; auto.
  destruct (String.eqb_spec a k); congruence.
Qed.
Lemma pop_all_spec ks : forall params vs params', pop_all params ks = Some (vs, params') ->
  List.Forall2 (fun k v => dget params k = Some (Some v)) ks vs
  /\ (forall k, ~ In k ks -> dget params' k = dget params k).
Proof.
  induction ks as [|k ks IH]; cbn; intros params vs params' E.
  - injection E as <- <-. split; auto.
  - unfold pop in E. destruct (dget params k) as [[v|]|] eqn:Ek; try discriminate.
    destruct (pop_all _ ks) as [[vs' p']|] eqn:Ep; [|discriminate]. cbn in E. injection E as <- <-.
    destruct (IH _ _ _ Ep) as [F K]. split.
    + constructor; auto. eapply Forall2_mono; [|apply F]. cbn. intros k' v' _ H.
      destruct (string_dec k' k) as [->|N]; [rewrite dget_filter_same in H; discriminate|].
      now rewrite dget_filter in H.
    + intros k' H. rewrite K, dget_filter; auto.
Qed.
Lemma pop_all_total ks : forall params, NoDup ks -> (forall k, In k ks -> exists v, dget params k = Some (Some v)) ->
  exists r, pop_all params ks = Some r.
Proof.
  induction ks as [|k ks IH]; cbn; intros params N H; eauto. inversion N; subst. unfold pop.
  destruct (H k (or_introl eq_refl)) as (v & ->).
  destruct (IH (filter (fun p => negb (String.eqb (fst p) k)) params) H3) as (r & ->); cbn; eauto.
  intros k' H'. destruct (H k' (or_intror H')) as (v' & E). exists v'. rewrite dget_filter; auto. congruence.
Qed.

(** ** the table *)
Definition fields_of (ct : string) (e : bool * string * @builder V) (kf : kind * fields) : Prop :=
  let '(_, pname, b) := e in forall N params, b N pname ct params = create N (fst kf) (snd kf) params.
Definition s_table (ct : string) :
  { l : table | forall fl, List.Forall2 (fields_of ct) (s_info_collection one zero minus_one fl) l }.
Proof.
  eexists. intros fl. unfold s_info_collection.
  repeat (eapply (@Forall2_cons _ _ _ _ (_, _)); [intros N params; cbn [fst snd]; reflexivity|]).
  apply Forall2_nil.
Defined.
Definition tbl (ct : string) : table := proj1_sig (s_table ct).
Lemma tbl_ok ct fl : List.Forall2 (fields_of ct) (s_info_collection one zero minus_one fl) (tbl ct).
Proof. unfold tbl. destruct (s_table ct) as [l H]. apply H. Qed.
Definition pick {A B} (es : list (bool * string * B)) (l : list A) : list A :=
  flat_map (fun p => if used (fst p) then [snd p] else []) (combine es l).

Lemma combine_map_seq (f : nat -> list (dist V)) g N :
  combine_distributions (map f (seq 0 N)) (map g (seq 0 N)) = map (fun i => (f i ++ [g i])%list) (seq 0 N).
Proof.
  unfold combine_distributions. generalize (seq 0 N). induction l as [|x l IH]; cbn; auto. now rewrite IH.
Qed.
Definition build_all params (kfs : table) (i : nat) : list (dist V) :=
  map (fun kf => built params (fst kf) (snd kf) i) kfs.
Lemma loop_exact params ct N es l : List.Forall2 (fields_of ct) es l -> forall f r,
  fold_left (non_mass_step N ct params) es (Some (map f (seq 0 N))) = Some r ->
  r = map (fun i => (f i ++ build_all params (pick es l) i)%list) (seq 0 N).
Proof.
  induction 1 as [|e kf es l He Hes IH]; intros f r E.
  - cbn in E. injection E as <-. apply map_ext. intros i. unfold build_all, pick. cbn. now rewrite app_nil_r.
  - destruct e as [[use pname] b]. cbn [fold_left] in E. unfold pick. cbn [combine flat_map fst snd used].
    fold (pick es l). cbn [non_mass_step] in E. destruct use.
    + destruct (b N pname ct params) as [ds|] eqn:Eb; [|rewrite fold_none in E; [discriminate|now intros [[? ?] ?]]].
      rewrite (He N params) in Eb. apply create_value in Eb. subst ds. rewrite combine_map_seq in E.
      apply IH in E. rewrite E. apply map_ext. intros i. cbn. now rewrite <- app_assoc.
    + apply IH in E. exact E.
Qed.
Lemma with_rest_exact N ct fl params mk mf ms cs :
  with_rest one zero minus_one N ct fl params (create N mk mf params) = Some (ms, cs) ->
  ms = map (built params mk mf) (seq 0 N)
  /\ cs = map (build_all params ((mk, mf) :: pick (s_info_collection one zero minus_one fl) (tbl ct))) (seq 0 N).
Proof.
  unfold with_rest. destruct (create N mk mf params) as [ds|] eqn:E; [|discriminate].
  apply create_value in E. subst ds. unfold s_build_non_mass. rewrite map_map.
  destruct (fold_left _ _ _) as [r|] eqn:El; [|discriminate]. cbn. injection 1 as <- <-. split; auto.
  apply (loop_exact _ _ _ _ _ (tbl_ok ct fl)) in El. rewrite El. reflexivity.
Qed.
Lemma with_rest_total N ct fl params mk mf :
  (forall i, i < N -> List.Forall (supplied params i) (flat_map snd mf)) ->
  (forall kf, In kf (pick (s_info_collection one zero minus_one fl) (tbl ct)) ->
     forall i, i < N -> List.Forall (supplied params i) (flat_map snd (snd kf))) ->
  exists r, with_rest one zero minus_one N ct fl params (create N mk mf params) = Some r.
Proof.
  intros Hm Hr. unfold with_rest. destruct (create_total N mk mf params Hm) as (ds & ->).
  unfold s_build_non_mass.
  destruct (loop_total params ct N (s_info_collection one zero minus_one fl)) with (cs := map (fun d => [d]) ds) as (r & ->); [|cbn; eauto].
  assert (H : forall es l, List.Forall2 (fields_of ct) es l -> (forall kf, In kf (pick es l) ->
     forall i, i < N -> List.Forall (supplied params i) (flat_map snd (snd kf))) -> List.Forall (entry_total ct params N) es).
  { induction 1 as [|[[use pname] b] kf es l He Hes IH]; intros K; constructor.
    - intros Hu. subst use. rewrite He. apply create_total. apply K. unfold pick. cbn. now left.
    - apply IH. intros kf' Hk. apply K. unfold pick. cbn. apply in_or_app. now right. }
  exact (H _ _ (tbl_ok ct fl) Hr).
Qed.

(** ** the masses *)
Definition mass_ct (v : variant) : string := match v with O3 => "pl" | O4 => "bpl" end.
Definition pl_mass (v : variant) : kind * fields :=
  match v with
  | O3 => (KPowerlaw, [("alpha", [need "alpha_pl"]); ("low", [need "mmin_pl"]); ("high", [need "mmax_pl"])])
  | O4 => (KBrokenPowerlaw,
           [("alpha1", [need "alpha1_bpl"]); ("alpha2", [need "alpha2_bpl"]); ("mbreak", [need "m1break_bpl"]);
            ("mmax", [need "m1max_bpl"]); ("mmin", [need "m1min_bpl"])])
  end.
Definition g_mass : kind * fields :=
  (KTruncatedNormal, [("loc", [need "m1_loc_g"]); ("scale", [need "m1_scale_g"]);
                      ("low", [optional "m1_low_g"]); ("high", [optional "m1_high_g"])]).
Definition pl_all v fl : table := pl_mass v :: pick (s_info_collection one zero minus_one fl) (tbl (mass_ct v)).
Definition g_all fl : table := g_mass :: pick (s_info_collection one zero minus_one fl) (tbl "g").
Lemma build_pl_eq v N fl params : build_pl one zero minus_one v N fl params
  = with_rest one zero minus_one N (mass_ct v) fl params (create N (fst (pl_mass v)) (snd (pl_mass v)) params).
Proof. destruct v; reflexivity. Qed.
Lemma build_g_eq N fl params : build_g one zero minus_one N fl params
  = with_rest one zero minus_one N "g" fl params (create N (fst g_mass) (snd g_mass) params).
Proof. reflexivity. Qed.

(** ** names read by a table *)
Definition reads (l : table) : list (@read V) := flat_map (fun kf => flat_map snd (snd kf)) l.
Lemma reads_single r kf l : In r (reads [kf]) -> In r (reads (kf :: l)).
Proof. unfold reads. cbn [flat_map]. rewrite app_nil_r. intros H. apply in_or_app. now left. Qed.
Definition rname (r : @read V) : string := fst (fst r).
Definition full : sflags := Build_sflags true true true true true true true true.
Lemma pick_incl fl ct : incl (pick (s_info_collection one zero minus_one fl) (tbl ct)) (tbl ct).
Proof.
  intros x H. unfold pick in H. apply in_flat_map in H as ([e kf] & H1 & H2). cbn in H2.
  destruct (used e); [|contradiction]. destruct H2 as [->|[]]. now apply in_combine_r in H1.
Qed.
Lemma clean_all v : forallb (clean (s_scalars v)) (map rname (reads (pl_mass v :: g_mass :: tbl (mass_ct v) ++ tbl "g"))) = true.
Proof. destruct v; vm_compute; reflexivity. Qed.
Lemma clean_pl v fl r : In r (reads (pl_all v fl)) -> clean (s_scalars v) (rname r) = true.
Proof.
  intros H. pose proof (clean_all v) as C. rewrite forallb_forall in C. apply C. apply in_map.
  unfold reads in *. apply in_flat_map in H as (kf & H & Hr). apply in_flat_map. exists kf. split; auto.
  destruct H as [<-|H]; [now left|]. right; right. apply in_or_app. left. eapply pick_incl; eauto.
Qed.
Lemma clean_g v fl r : In r (reads (g_all fl)) -> clean (s_scalars v) (rname r) = true.
Proof.
  intros H. pose proof (clean_all v) as C. rewrite forallb_forall in C. apply C. apply in_map.
  unfold reads in *. apply in_flat_map in H as (kf & H & Hr). apply in_flat_map. exists kf. split; auto.
  destruct H as [<-|H]; [right; now left|]. right; right. apply in_or_app. right. eapply pick_incl; eauto.
Qed.

Lemma built_ext params params' kf i :
  (forall r, In r (reads [kf]) -> value params i r = value params' i r) ->
  built params (fst kf) (snd kf) i = built params' (fst kf) (snd kf) i.
Proof.
  intros H. unfold built. f_equal. apply map_ext_in.
  intros f Hf. f_equal. apply map_ext_in. intros r Hr. apply H. unfold reads. cbn [flat_map]. rewrite app_nil_r.
  apply in_flat_map. eauto.
Qed.
Lemma build_all_ext params params' l i :
  (forall r, In r (reads l) -> value params i r = value params' i r) ->
  build_all params l i = build_all params' l i.
Proof.
  intros H. unfold build_all. apply map_ext_in. intros kf Hk. unfold built. f_equal. apply map_ext_in.
  intros f Hf. f_equal. apply map_ext_in. intros r Hr. apply H. unfold reads. apply in_flat_map.
  exists kf. split; auto. apply in_flat_map. eauto.
Qed.
Lemma value_ext params params' i r :
  given params (rname r) i = given params' (rname r) i -> value params i r = value params' i r.
Proof. destruct r as [[n nec] d]. unfold value, rname. cbn. now intros ->. Qed.

(** ** the whole model *)
Definition lambda_names (n : nat) : list string := map (fun i => numbered "lambda" i) (seq 0 n).
Record shape (v : variant) (N_pl N_g : nat) (fl : sflags) (params : params_t V) (m : smoothed V) : Prop := {
  sh_pos : 0 < N_pl + N_g;
  sh_scalars : List.Forall (fun p => dget params (fst p) = Some (Some (snd p))) (scalar_sources v m);
  sh_lambdas : exists ls, List.Forall2 (fun k x => dget params k = Some (Some x)) (lambda_names (N_pl + N_g - 1)) ls
                          /\ s_lambdas m = (ls ++ [complement ls])%list;
  sh_masses : s_masses m = (map (built params (fst (pl_mass v)) (snd (pl_mass v))) (seq 0 N_pl)
                            ++ map (built params (fst g_mass) (snd g_mass)) (seq 0 N_g))%list;
  sh_components : s_components m = (map (build_all params (pl_all v fl)) (seq 0 N_pl)
                                    ++ map (build_all params (g_all fl)) (seq 0 N_g))%list }.

Lemma mixtures_exact v N_pl N_g fl params ls ms cs :
  mixtures one zero minus_one complement v N_pl N_g fl params = Some (ls, ms, cs) ->
  0 < N_pl + N_g /\
  (exists l0, List.Forall2 (fun k x => dget params k = Some (Some x)) (lambda_names (N_pl + N_g - 1)) l0
             /\ ls = (l0 ++ [complement l0])%list) /\
  ms = (map (built params (fst (pl_mass v)) (snd (pl_mass v))) (seq 0 N_pl)
        ++ map (built params (fst g_mass) (snd g_mass)) (seq 0 N_g))%list /\
  cs = (map (build_all params (pl_all v fl)) (seq 0 N_pl)
        ++ map (build_all params (g_all fl)) (seq 0 N_g))%list.
Proof.
  unfold mixtures. change (map (fun i : nat => "lambda_" ++ decimal i)%string) with (map (fun i => numbered "lambda" i)).
  fold (lambda_names (N_pl + N_g - 1)).
  destruct (pop_all params _) as [[l0 params']|] eqn:Ep; [|discriminate].
  apply pop_all_spec in Ep as [F K]. rewrite build_pl_eq, build_g_eq.
  assert (G : forall r i, clean (s_scalars v) (rname r) = true -> value params' i r = value params i r).
  { intros r i C. apply value_ext. destruct (clean_spec _ _ i C) as (_ & _ & C1 & C2).
    unfold given. rewrite !K; auto; unfold lambda_names; rewrite in_map_iff; intros (j & E & _);
    [apply (C1 j)|apply (C2 j)]; auto. }
  assert (P : forall pl, (if 0 <? N_pl then with_rest one zero minus_one N_pl (mass_ct v) fl params' (create N_pl (fst (pl_mass v)) (snd (pl_mass v)) params') else Some ([], [])) = Some pl ->
     fst pl = map (built params (fst (pl_mass v)) (snd (pl_mass v))) (seq 0 N_pl)
     /\ snd pl = map (build_all params (pl_all v fl)) (seq 0 N_pl)).
  { intros [a b]. destruct (Nat.ltb_spec 0 N_pl) as [H|H].
    - intros E. apply with_rest_exact in E as [-> ->]. cbn [fst snd]. split; apply map_ext; intros i.
      + apply built_ext. intros r Hr. apply G. apply (clean_pl v full). now apply reads_single.
      + rewrite <- surjective_pairing. apply build_all_ext. intros r Hr. apply G. now apply (clean_pl v fl).
    - injection 1 as <- <-. replace N_pl with 0 by lia. cbn. auto. }
  assert (Q : forall g, (if 0 <? N_g then with_rest one zero minus_one N_g "g" fl params' (create N_g (fst g_mass) (snd g_mass) params') else Some ([], [])) = Some g ->
     fst g = map (built params (fst g_mass) (snd g_mass)) (seq 0 N_g)
     /\ snd g = map (build_all params (g_all fl)) (seq 0 N_g)).
  { intros [a b]. destruct (Nat.ltb_spec 0 N_g) as [H|H].
    - intros E. apply with_rest_exact in E as [-> ->]. split; apply map_ext; intros i.
      + apply built_ext. intros r Hr. apply G. apply (clean_g v full). now apply reads_single.
      + apply build_all_ext. intros r Hr. apply G. now apply (clean_g v fl).
    - injection 1 as <- <-. replace N_g with 0 by lia. cbn. auto. }
  destruct (if 0 <? N_pl then _ else _) as [[a b]|]; [|discriminate].
  destruct (if 0 <? N_g then _ else _) as [[c d]|]; [|discriminate].
  destruct (P _ eq_refl) as [Pa Pb], (Q _ eq_refl) as [Qc Qd]. cbn [fst snd] in *. subst a b c d.
  destruct (_ && _) eqn:L; [|discriminate]. injection 1 as <- <- <-.
  apply andb_true_iff in L as [L _]. apply Nat.eqb_eq in L. rewrite !app_length, !map_length, !seq_length in L. cbn in L.
  repeat split; eauto. lia.
Qed.

Lemma shape_intro v N_pl N_g fl params params' ls ms cs m :
  (forall k, ~ In k (s_scalars v) -> dget params' k = dget params k) ->
  mixtures one zero minus_one complement v N_pl N_g fl params' = Some (ls, ms, cs) ->
  List.Forall (fun p => dget params (fst p) = Some (Some (snd p))) (scalar_sources v m) ->
  s_lambdas m = ls -> s_masses m = ms -> s_components m = cs -> shape v N_pl N_g fl params m.
Proof.
  intros K Em S E1 E2 E3. apply mixtures_exact in Em as (Hp & (l0 & Hl & ->) & -> & ->).
  assert (G : forall r i, clean (s_scalars v) (rname r) = true -> value params' i r = value params i r).
  { intros r i C. apply value_ext. destruct (clean_spec _ _ i C) as (C1 & C2 & _). unfold given. rewrite !K; auto. }
  split; auto.
  - exists l0. split; auto. eapply Forall2_mono; [|apply Hl]. cbn. intros k x Hk <-. symmetry. apply K.
    unfold lambda_names in Hk. apply in_map_iff in Hk as (j & <- & _). intros H.
    assert (forallb (fun s => negb (String.prefix "lambda" s)) (s_scalars v) = true) as C by now destruct v.
    rewrite forallb_forall in C. specialize (C _ H). rewrite prefix_numbered in C. discriminate.
  - rewrite E2. f_equal; apply map_ext; intros i.
    + apply built_ext. intros r Hr. apply G. apply (clean_pl v full). now apply reads_single.
    + apply built_ext. intros r Hr. apply G. apply (clean_g v full). now apply reads_single.
  - rewrite E3. f_equal; apply map_ext; intros i; apply build_all_ext; intros r Hr; apply G;
    [now apply (clean_pl v fl)|now apply (clean_g v fl)].
Qed.
Ltac inv_forall2 F :=
  repeat match type of F with List.Forall2 _ (_ :: _) _ =>
    let F' := fresh in inversion F as [|? ? ? ? ? F']; clear F; subst; rename F' into F end;
  inversion F; subst; clear F.
Lemma model_shape v N_pl N_g fl params m :
  s_model one zero minus_one complement v N_pl N_g fl params = Some m -> shape v N_pl N_g fl params m.
Proof.
  intros E. destruct v; cbn [s_model] in E; [unfold n_smoothed_powerlaw in E|unfold n_broken_powerlaw in E];
  (destruct (pop_all params _) as [[vs params']|] eqn:Ep; [|discriminate];
   apply pop_all_spec in Ep as [F K]; inv_forall2 F;
   destruct (mixtures _ _ _ _ _ _ _ _ _) as [[[ls ms] cs]|] eqn:Em; [|discriminate]; injection E as <-;
   eapply shape_intro; [exact K|exact Em| |reflexivity|reflexivity|reflexivity];
   cbn; repeat constructor; assumption).
Qed.

(** ** the declared hyper-parameters *)
Definition tagged v fl : list (string * tag) :=
  map (fun p => (fst p, if snd p =? 7 then TP else if snd p =? 5 then TG else TB)) (s_all_params v fl 7 5).
Definition scount (N_pl N_g : nat) (t : tag) : nat :=
  match t with TP => N_pl | TG => N_g | TB => N_pl + N_g - 1 end.
Lemma map_if {A B} (f : A -> B) (b : bool) l : map f (if b then l else []) = if b then map f l else [].
Proof. now destruct b. Qed.
Lemma s_all_params_tagged v fl N_pl N_g :
  s_all_params v fl N_pl N_g = map (fun p => (fst p, scount N_pl N_g (snd p))) (tagged v fl).
Proof.
  unfold tagged. rewrite map_map. cbn [fst snd].
  destruct v; cbn [s_all_params]; [unfold all_params_o3|unfold all_params_o4];
  rewrite !map_app, !map_if; reflexivity.
Qed.
(** what is read is what is declared *)
Definition same_names (fl : sflags) (v : variant) (l : table) (t : tag) : bool :=
  forallb (fun r => memb (rname r, t) (tagged v fl)) (reads l)
  && forallb (fun p => negb (tag_eqb (snd p) t) || existsb (String.eqb (fst p)) (map rname (reads l))) (tagged v fl).
Lemma read_declared v fl : same_names fl v (pl_all v fl) TP && same_names fl v (g_all fl) TG
  && forallb (fun p => negb (tag_eqb (snd p) TB) || String.eqb (fst p) "lambda") (tagged v fl)
  && memb ("lambda", TB) (tagged v fl) = true.
Proof.
  destruct v, fl as [[] [] [] [] [] [] [] []]; vm_compute; reflexivity.
Qed.

Lemma memb_declared v fl N_pl N_g name t : In (name, t) (tagged v fl) ->
  In (name, scount N_pl N_g t) (s_all_params v fl N_pl N_g).
Proof. intros H. rewrite s_all_params_tagged. apply in_map_iff. exists (name, t). auto. Qed.
Lemma in_s_model_parameters v fl N_pl N_g n :
  In n (s_model_parameters v fl N_pl N_g) <->
  In n (s_scalars v) \/ exists name t i, In (name, t) (tagged v fl) /\ i < scount N_pl N_g t /\ n = numbered name i.
Proof.
  unfold s_model_parameters. rewrite in_app_iff, in_flat_map. apply or_iff_compat_l. split.
  - intros ([name c] & H & Hi). rewrite s_all_params_tagged in H. apply in_map_iff in H as ([n' t] & E & H).
    cbn in E. injection E as <- <-. unfold expand_arguments in Hi. apply in_map_iff in Hi as (i & <- & Hi).
    apply in_seq in Hi. exists n', t, i. cbn in Hi. repeat split; auto. lia.
  - intros (name & t & i & H & Hi & ->). exists (name, scount N_pl N_g t). split; [now apply memb_declared|]. cbn.
    unfold expand_arguments. apply in_map_iff. exists i. split; auto. apply in_seq. lia.
Qed.

Lemma read_declared_parts v fl :
  (forall r, In r (reads (pl_all v fl)) -> In (rname r, TP) (tagged v fl))
  /\ (forall n, In (n, TP) (tagged v fl) -> In n (map rname (reads (pl_all v fl))))
  /\ (forall r, In r (reads (g_all fl)) -> In (rname r, TG) (tagged v fl))
  /\ (forall n, In (n, TG) (tagged v fl) -> In n (map rname (reads (g_all fl))))
  /\ (forall n, In (n, TB) (tagged v fl) <-> n = "lambda").
Proof.
  pose proof (read_declared v fl) as H. rewrite !andb_true_iff in H. destruct H as (((P & G) & L) & L').
  unfold same_names in P, G. apply andb_true_iff in P as [P1 P2]. apply andb_true_iff in G as [G1 G2].
  rewrite forallb_forall in P1, P2, G1, G2, L. repeat split.
  - intros r Hr. now apply memb_In, P1.
  - intros n Hn. specialize (P2 _ Hn). cbn [snd fst tag_eqb negb orb] in P2. apply existsb_exists in P2 as (x & Hx & E).
    apply String.eqb_eq in E. now subst.
  - intros r Hr. now apply memb_In, G1.
  - intros n Hn. specialize (G2 _ Hn). cbn [snd fst tag_eqb negb orb] in G2. apply existsb_exists in G2 as (x & Hx & E).
    apply String.eqb_eq in E. now subst.
  - intros Hn. specialize (L _ Hn). cbn [snd fst tag_eqb negb orb] in L. now apply String.eqb_eq in L.
  - intros ->. now apply memb_In.
Qed.

(** ** totality *)
Section Total.
Variables (v : variant) (fl : sflags) (N_pl N_g : nat).
Variable params : params_t V.
Hypothesis declared : forall n, In n (s_model_parameters v fl N_pl N_g) -> exists x, dget params n = Some (Some x).

Lemma declared_numbered name t i : In (name, t) (tagged v fl) -> i < scount N_pl N_g t ->
  exists x, dget params (numbered name i) = Some (Some x).
Proof. intros. apply declared. apply in_s_model_parameters. right. eauto 6. Qed.
(** a dictionary that agrees with [params] outside the popped names *)
Definition rest_of (params' : params_t V) : Prop :=
  forall r i, clean (s_scalars v) (rname r) = true -> dget params' (numbered (rname r) i) = dget params (numbered (rname r) i).
Lemma supplied_intro params' r t i : rest_of params' -> In (rname r, t) (tagged v fl) -> i < scount N_pl N_g t ->
  clean (s_scalars v) (rname r) = true -> supplied params' i r.
Proof.
  intros K H Hi C. destruct (declared_numbered _ _ _ H Hi) as (x & E). rewrite <- K in E by auto.
  destruct r as [[n nec] d]. intros _ _. unfold given. unfold rname in E. cbn [fst] in E. rewrite E. discriminate.
Qed.
Lemma scalars_NoDup : NoDup (s_scalars v).
Proof. apply distinctb_NoDup. now destruct v. Qed.
Lemma lambda_names_NoDup n : NoDup (lambda_names n).
Proof.
  unfold lambda_names. apply FinFun.Injective_map_NoDup; [|apply seq_NoDup].
  intros i j E. apply numbered_inj2 in E. tauto.
Qed.
Lemma in_lambda_names n k : In k (lambda_names n) -> exists j, j < n /\ k = numbered "lambda" j.
Proof.
  unfold lambda_names. rewrite in_map_iff. intros (j & <- & Hj). apply in_seq in Hj. exists j. split; auto. lia.
Qed.
Lemma lambda_not_scalar j : ~ In (numbered "lambda" j) (s_scalars v).
Proof.
  intros H. assert (forallb (fun s => negb (String.prefix "lambda" s)) (s_scalars v) = true) as C by now destruct v.
  rewrite forallb_forall in C. specialize (C _ H). rewrite prefix_numbered in C. discriminate.
Qed.
Lemma mixtures_total params1 : 0 < N_pl + N_g ->
  (forall k, ~ In k (s_scalars v) -> dget params1 k = dget params k) ->
  exists r, mixtures one zero minus_one complement v N_pl N_g fl params1 = Some r.
Proof.
  intros Hp K. destruct (read_declared_parts v fl) as (P1 & _ & G1 & _ & L).
  unfold mixtures. change (map (fun i : nat => "lambda_" ++ decimal i)%string) with (map (fun i => numbered "lambda" i)).
  fold (lambda_names (N_pl + N_g - 1)).
  destruct (pop_all_total (lambda_names (N_pl + N_g - 1)) params1 (lambda_names_NoDup _)) as ([ls params2] & E).
  { intros k Hk. apply in_lambda_names in Hk as (j & Hj & ->). rewrite K by apply lambda_not_scalar.
    apply (declared_numbered "lambda" TB); auto. now apply L. }
  rewrite E. apply pop_all_spec in E as [F K2].
  assert (R : rest_of params2).
  { intros r i C. destruct (clean_spec _ _ i C) as (C1 & _ & _ & C4). rewrite K2, K; auto.
    intros H. apply in_lambda_names in H as (j & _ & H). now apply (C4 j). }
  rewrite build_pl_eq, build_g_eq.
  destruct (with_rest_total N_pl (mass_ct v) fl params2 (fst (pl_mass v)) (snd (pl_mass v))) as ([pm pc] & Ep).
  { intros i Hi. apply Forall_forall. intros r Hr.
    assert (In r (reads (pl_all v fl))) as Hr'.
    { unfold reads, pl_all. cbn [flat_map]. apply in_or_app. now left. }
    eapply supplied_intro; eauto. now apply (clean_pl v fl). }
  { intros kf Hk i Hi. apply Forall_forall. intros r Hr.
    assert (In r (reads (pl_all v fl))) as Hr'.
    { unfold reads. apply in_flat_map. exists kf. split; auto. right. auto. }
    eapply supplied_intro; eauto. now apply (clean_pl v fl). }
  destruct (with_rest_total N_g "g" fl params2 (fst g_mass) (snd g_mass)) as ([gm gc] & Eg).
  { intros i Hi. apply Forall_forall. intros r Hr.
    assert (In r (reads (g_all fl))) as Hr'.
    { unfold reads, g_all. cbn [flat_map]. apply in_or_app. now left. }
    eapply supplied_intro; eauto. now apply (clean_g v fl). }
  { intros kf Hk i Hi. apply Forall_forall. intros r Hr.
    assert (In r (reads (g_all fl))) as Hr'.
    { unfold reads. apply in_flat_map. exists kf. split; auto. right. auto. }
    eapply supplied_intro; eauto. now apply (clean_g v fl). }
  rewrite Ep, Eg. apply with_rest_exact in Ep as [-> ->]. apply with_rest_exact in Eg as [-> ->].
  assert (Ll : length ls = N_pl + N_g - 1).
  { apply Forall2_same_length in F. unfold lambda_names in F. now rewrite map_length, seq_length in F. }
  destruct (Nat.ltb_spec 0 N_pl), (Nat.ltb_spec 0 N_g);
  rewrite !app_length, ?map_length, ?seq_length, Ll; cbn [length];
  match goal with |- context [(?a =? ?b)] => replace (a =? b) with true by (symmetry; apply Nat.eqb_eq; lia) end;
  cbn [andb]; eauto.
Qed.
Lemma model_total_s : 0 < N_pl + N_g ->
  exists m, s_model one zero minus_one complement v N_pl N_g fl params = Some m.
Proof.
  intros Hp. destruct (pop_all_total (s_scalars v) params scalars_NoDup) as ([vs params1] & E).
  { intros k Hk. apply declared. apply in_s_model_parameters. now left. }
  pose proof (pop_all_spec _ _ _ _ E) as [F K]. destruct (mixtures_total params1 Hp K) as ([[ls ms] cs] & Em).
  clear declared K. destruct v; cbn [s_model s_scalars] in *;
  [unfold n_smoothed_powerlaw; change ["beta"; "delta_m"; "log_rate"; "mmax"; "mmin"] with scalars_o3
  |unfold n_broken_powerlaw; change ["beta"; "delta_m1"; "delta_m2"; "log_rate"; "m1max"; "m1min"; "m2min"] with scalars_o4];
  rewrite E; unfold scalars_o3, scalars_o4 in F; inv_forall2 F; rewrite Em; eauto.
Qed.
End Total.

(** ** coordinates *)
Definition s_quantities : list (list string) :=
  [["a_1"]; ["a_2"]; ["a_1"; "a_2"]; ["chi_eff"]; ["chi_eff"]; ["chi_p"]; ["cos_tilt_1"; "cos_tilt_2"];
   ["eccentricity"]; ["redshift"]].
Notation expects := (s_expected one zero minus_one).
Lemma tbl_expected ct params i : List.Forall2 (fun kf ns => expects params ct i (built params (fst kf) (snd kf) i) ns) (tbl ct) s_quantities.
Proof.
  unfold tbl, s_table, s_quantities. cbn [proj1_sig].
  repeat (apply Forall2_cons; [|]); try apply Forall2_nil;
  (unfold s_expected, expected, built; cbn [d_kind d_args map fst snd];
   rewrite ?value_need, ?value_optional;
   first [ eexists; split; [reflexivity|]; reflexivity
         | split; [reflexivity|]; reflexivity ]).
Qed.
Lemma pick_expected ct params i (es : list (bool * string * @builder V)) l qs :
  List.Forall2 (fun kf ns => expects params ct i (built params (fst kf) (snd kf) i) ns) l qs ->
  List.Forall2 (expects params ct i) (build_all params (pick es l) i) (pick es qs).
Proof.
  intros F. revert es. induction F as [|kf ns l qs H F IH]; intros [|e es]; try constructor.
  unfold pick. cbn [combine flat_map fst snd]. destruct (used e); cbn [app]; [|apply IH].
  constructor; auto. apply IH.
Qed.
Lemma picked_names fl : s_compatible fl ->
  (["mass_1_source"] ++ concat (pick (s_info_collection one zero minus_one fl) s_quantities) ++ ["mass_ratio"])%list = s_parameters fl.
Proof.
  destruct fl as [b1 b2 b3 b4 b5 b6 b7 b8]. unfold s_compatible, s_parameters, pick, s_info_collection, s_quantities.
  cbn -[app]. intros [H1 H2].
  destruct b1, b2; try discriminate; destruct b3, b4; try discriminate; destruct b5, b6, b7, b8; reflexivity.
Qed.
Lemma all_expected v fl params k i : s_compatible fl -> forall N_pl,
  let l := if k <? N_pl then pl_all v fl else g_all fl in
  exists nss, List.Forall2 (expects params (s_component_type v N_pl k) i) (build_all params l i) nss
  /\ (concat nss ++ ["mass_ratio"])%list = s_parameters fl.
Proof.
  intros C N_pl l. exists (["mass_1_source"] :: pick (s_info_collection one zero minus_one fl) s_quantities). split.
  - subst l. unfold s_component_type. destruct (k <? N_pl).
    + unfold pl_all, build_all. cbn [map]. constructor.
      * destruct v; unfold s_expected, built, pl_mass; cbn [d_kind d_args fst snd map]; rewrite ?value_need; auto.
      * change (match v with O3 => "pl" | O4 => "bpl" end) with (mass_ct v). apply pick_expected, tbl_expected.
    + unfold g_all, build_all. cbn [map]. constructor; [|apply pick_expected, tbl_expected].
      unfold s_expected, expected, built, g_mass. cbn [d_kind d_args fst snd map].
      rewrite ?value_need, ?value_optional. exists "mass_1_source". split; reflexivity.
  - cbn [concat]. rewrite <- app_assoc. now apply picked_names.
Qed.
Lemma s_expected_dim params ct i d names : expects params ct i d names -> length names = event_dim (d_kind d).
Proof.
  destruct (d_kind d) eqn:E; unfold s_expected; rewrite E;
  try (intros H; apply expected_dim in H; rewrite H, E; reflexivity);
  intros [-> _]; reflexivity.
Qed.
Lemma s_expected_dimension params ct i c nss : List.Forall2 (expects params ct i) c nss ->
  dimension c = length (concat nss).
Proof.
  unfold dimension. induction 1 as [|d ns c nss H _ IH]; cbn; auto. unfold list_sum in *. cbn.
  rewrite IH, app_length. now rewrite (s_expected_dim _ _ _ _ _ H).
Qed.

(** position k of the two lists of components *)
Lemma nth_two {A} (f g : nat -> A) N M k x :
  nth_error (map f (seq 0 N) ++ map g (seq 0 M)) k = Some x ->
  k < N + M /\ x = if k <? N then f k else g (k - N).
Proof.
  intros H. assert (k < N + M) as Hk.
  { assert (nth_error (map f (seq 0 N) ++ map g (seq 0 M)) k <> None) as S by congruence.
    apply nth_error_Some in S. now rewrite app_length, !map_length, !seq_length in S. }
  split; auto. destruct (Nat.ltb_spec k N) as [L|L].
  - rewrite nth_error_app1 in H by (rewrite map_length, seq_length; auto).
    rewrite nth_map_seq in H by auto. now injection H.
  - rewrite nth_error_app2 in H by (rewrite map_length, seq_length; auto).
    rewrite map_length, seq_length, nth_map_seq in H by lia. now injection H.
Qed.
Lemma two_nth {A} (f g : nat -> A) N M k : k < N + M ->
  nth_error (map f (seq 0 N) ++ map g (seq 0 M)) k = Some (if k <? N then f k else g (k - N)).
Proof.
  intros H. destruct (nth_error _ k) as [x|] eqn:E.
  - apply nth_two in E as [_ ->]. reflexivity.
  - apply nth_error_None in E. rewrite app_length, !map_length, !seq_length in E. lia.
Qed.

(** ** values that reach the model *)
Lemma built_value params kf i name x : In name (map rname (reads [kf])) ->
  dget params (numbered name i) = Some (Some x) ->
  exists a, In a (d_args (built params (fst kf) (snd kf) i)) /\ In (Some x) (snd a).
Proof.
  intros Hn Hv. apply in_map_iff in Hn as (r & <- & Hr). unfold reads in Hr. cbn [flat_map] in Hr.
  rewrite app_nil_r in Hr. apply in_flat_map in Hr as (f & Hf & Hr).
  exists (fst f, map (value params i) (snd f)). split.
  - unfold built. cbn. apply in_map_iff. eauto.
  - cbn. apply in_map_iff. exists r. split; auto. destruct r as [[n nec] d]. unfold value, given. unfold rname in Hv.
    cbn [fst] in Hv. now rewrite Hv.
Qed.
Lemma build_all_value params l i name x : In name (map rname (reads l)) ->
  dget params (numbered name i) = Some (Some x) ->
  exists d a, In d (build_all params l i) /\ In a (d_args d) /\ In (Some x) (snd a).
Proof.
  intros Hn Hv. apply in_map_iff in Hn as (r & <- & Hr). unfold reads in Hr. apply in_flat_map in Hr as (kf & Hk & Hr).
  destruct (built_value params kf i (rname r) x) as (a & H1 & H2); auto.
  { apply in_map. unfold reads. cbn [flat_map]. now rewrite app_nil_r. }
  exists (built params (fst kf) (snd kf) i), a. repeat split; auto. unfold build_all.
  apply in_map_iff. exists kf. auto.
Qed.
Lemma s_all_reach v N_pl N_g fl params m n x :
  s_model one zero minus_one complement v N_pl N_g fl params = Some m ->
  In n (s_model_parameters v fl N_pl N_g) -> dget params n = Some (Some x) -> s_reaches x m.
Proof.
  intros E Hn Hx. apply model_shape in E. destruct E as [_ S (ls & L1 & L2) _ C].
  apply in_s_model_parameters in Hn as [Hn|(name & t & i & Ht & Hi & ->)].
  - left. destruct v; cbn in S, Hn;
    repeat match type of S with List.Forall _ (_ :: _) =>
      let S' := fresh in inversion S as [|? ? ? S']; clear S; subst; rename S' into S end;
    repeat destruct Hn as [<-|Hn]; try contradiction; cbn in *;
    repeat match goal with H : dget params _ = Some (Some _) |- _ => rewrite H in Hx; clear H end; injection Hx; auto 10.
  - destruct (read_declared_parts v fl) as (_ & P & _ & G & L). destruct t; cbn in Hi.
    + destruct (build_all_value params (pl_all v fl) i name x (P _ Ht) Hx) as (d & a & H1 & H2 & H3).
      right; right. exists (build_all params (pl_all v fl) i), d, a. repeat split; auto.
      rewrite C. apply in_or_app. left. apply in_map, in_seq. lia.
    + destruct (build_all_value params (g_all fl) i name x (G _ Ht) Hx) as (d & a & H1 & H2 & H3).
      right; right. exists (build_all params (g_all fl) i), d, a. repeat split; auto.
      rewrite C. apply in_or_app. right. apply in_map, in_seq. lia.
    + apply L in Ht. subst name. right; left. rewrite L2. apply in_or_app. left.
      unfold lambda_names in L1. clear - L1 Hi Hx.
      assert (Hin : In i (seq 0 (N_pl + N_g - 1))) by (apply in_seq; lia). clear Hi. revert ls L1.
      induction (seq 0 (N_pl + N_g - 1)) as [|j js IH]; intros ls F; [contradiction|].
      cbn [map] in F. inversion F as [|? y ? ls' H1 H2]; subst. destruct Hin as [->|Hin]; [left; congruence|right; eauto].
Qed.

(** the model depends on the declared hyper-parameters only *)
Lemma only_declared v N_pl N_g fl params params' :
  (forall n, In n (s_model_parameters v fl N_pl N_g) -> exists x, dget params n = Some (Some x)) ->
  (forall n, In n (s_model_parameters v fl N_pl N_g) -> dget params' n = dget params n) -> 0 < N_pl + N_g ->
  s_model one zero minus_one complement v N_pl N_g fl params'
  = s_model one zero minus_one complement v N_pl N_g fl params.
Proof.
  intros D A Hp.
  destruct (model_total_s v fl N_pl N_g params D Hp) as (m & E).
  destruct (model_total_s v fl N_pl N_g params') as (m' & E'); auto.
  { intros n Hn. rewrite A; auto. }
  rewrite E, E'. f_equal. apply model_shape in E. apply model_shape in E'.
  destruct E as [_ S (ls & L1 & L2) M C]. destruct E' as [_ S' (ls' & L1' & L2') M' C'].
  destruct (read_declared_parts v fl) as (P & _ & G & _ & L).
  assert (VP : forall r i, In r (reads (pl_all v fl)) -> i < N_pl -> value params' i r = value params i r).
  { intros r i Hr Hi. apply value_ext. unfold given.
    assert (Hn : In (numbered (rname r) i) (s_model_parameters v fl N_pl N_g)).
    { apply in_s_model_parameters. right. exists (rname r), TP, i. auto. }
    rewrite A by auto. destruct (D _ Hn) as (x & ->). reflexivity. }
  assert (VG : forall r i, In r (reads (g_all fl)) -> i < N_g -> value params' i r = value params i r).
  { intros r i Hr Hi. apply value_ext. unfold given.
    assert (Hn : In (numbered (rname r) i) (s_model_parameters v fl N_pl N_g)).
    { apply in_s_model_parameters. right. exists (rname r), TG, i. auto. }
    rewrite A by auto. destruct (D _ Hn) as (x & ->). reflexivity. }
  assert (EM : s_masses m' = s_masses m).
  { rewrite M, M'. f_equal; apply map_ext_in; intros i Hi; apply in_seq in Hi; apply built_ext; intros r Hr;
    [apply VP|apply VG]; try lia; now apply reads_single. }
  assert (EC : s_components m' = s_components m).
  { rewrite C, C'. f_equal; apply map_ext_in; intros i Hi; apply in_seq in Hi; apply build_all_ext; intros r Hr;
    [apply VP|apply VG]; auto; lia. }
  assert (EL : s_lambdas m' = s_lambdas m).
  { rewrite L2, L2'. enough (ls' = ls) as -> by auto. 
    assert (forall k, In k (lambda_names (N_pl + N_g - 1)) -> dget params' k = dget params k) as AL.
    { intros k Hk. apply A. apply in_lambda_names in Hk as (j & Hj & ->). apply in_s_model_parameters. right.
      exists "lambda", TB, j. repeat split; auto. now apply L. }
    clear - L1 L1' AL. revert ls ls' L1 L1'. induction (lambda_names _) as [|k ks IH]; intros ls ls' F F';
    inversion F as [|? a ? la Ha Fa]; inversion F' as [|? b ? lb Hb Fb]; subst; auto.
    rewrite AL in Hb by now left. f_equal; [congruence|]. apply IH; auto. intros k' Hk'. apply AL. now right. }
  assert (ES : forall k, In k (s_scalars v) -> dget params' k = dget params k).
  { intros k Hk. apply A, in_s_model_parameters. now left. }
  clear - S S' ES EM EC EL. destruct m as [? ? ? ? ? ? ? l1 l2 l3], m' as [? ? ? ? ? ? ? l1' l2' l3']. cbn in EM, EC, EL. subst.
  destruct v; cbn in S, S', ES;
  repeat match type of S with List.Forall _ (_ :: _) =>
      let S1 := fresh in inversion S as [|? ? ? S1]; clear S; subst; rename S1 into S end;
  repeat match type of S' with List.Forall _ (_ :: _) =>
      let S1 := fresh in inversion S' as [|? ? ? S1]; clear S'; subst; rename S1 into S' end;
  cbn in *; f_equal;
  match goal with |- ?a = ?b =>
    match goal with H : dget params' ?k = Some (Some a), H' : dget params ?k = Some (Some b) |- _ =>
      rewrite (ES k) in H by auto 12; congruence end end.
Qed.

Lemma tagged_any v : map fst (tagged v full) = map fst (s_all_params v full 0 0).
Proof. destruct v; reflexivity. Qed.
Lemma s_names_sub v fl N_pl N_g : sub (map fst (s_all_params v fl N_pl N_g)) (map fst (s_all_params v full N_pl N_g)).
Proof.
  apply sub_map. destruct v; cbn [s_all_params]; [unfold all_params_o3, full|unfold all_params_o4, full];
  cbn [sf_beta_spin_magnitude sf_spin_magnitude_mixture sf_chi_eff_mixture sf_skew_normal_chi_eff
    sf_truncated_normal_chi_p sf_tilt sf_eccentricity_mixture sf_redshift];
  repeat (apply sub_app; [first [apply sub_if|apply sub_refl]|]); apply sub_if.
Qed.
Lemma s_names_any v N_pl N_g : map fst (s_all_params v full N_pl N_g) = map fst (s_all_params v full 0 0).
Proof. destruct v; reflexivity. Qed.
Lemma s_distinct v fl N_pl N_g : NoDup (s_model_parameters v fl N_pl N_g).
Proof.
  unfold s_model_parameters. apply NoDup_app_intro.
  - apply distinctb_NoDup. now destruct v.
  - apply expanded_distinct. eapply sub_NoDup; [apply s_names_sub|]. rewrite s_names_any.
    apply distinctb_NoDup. destruct v; vm_compute; reflexivity.
  - intros x Hx Hy. apply in_flat_map in Hy as ([n c] & Hn & Hy). unfold expand_arguments in Hy.
    apply in_map_iff in Hy as (i & <- & _). cbn in Hx.
    assert (In n (map fst (s_all_params v full 0 0))) as Hn'.
    { rewrite <- (s_names_any v N_pl N_g). eapply sub_In; [apply s_names_sub|]. apply in_map_iff. exists (n, c). eauto. }
    assert (C : forallb (fun n => forallb (fun s => negb (String.prefix n s)) (s_scalars v)) (map fst (s_all_params v full 0 0)) = true)
      by (destruct v; vm_compute; reflexivity).
    rewrite forallb_forall in C. specialize (C _ Hn'). rewrite forallb_forall in C. specialize (C _ Hx).
    change (n ++ String "_" (decimal i))%string with (numbered n i) in C. rewrite prefix_numbered in C. discriminate.
Qed.
Lemma s_no_constant v fl N_pl N_g n : In n (s_model_parameters v fl N_pl N_g) -> ~ In n (s_constant_names v).
Proof.
  unfold s_model_parameters. rewrite in_app_iff. intros [H|H] Hc.
  - assert (forallb (fun s => negb (existsb (String.eqb s) (s_constant_names v))) (s_scalars v) = true) as C
      by (destruct v; vm_compute; reflexivity).
    rewrite forallb_forall in C. specialize (C _ H). rewrite negb_true_iff in C.
    assert (existsb (String.eqb n) (s_constant_names v) = true); [|congruence].
    apply existsb_exists. exists n. split; auto. apply String.eqb_refl.
  - apply in_flat_map in H as ([k c] & Hn & Hy). unfold expand_arguments in Hy.
    apply in_map_iff in Hy as (i & <- & _). cbn in Hc.
    assert (In k (map fst (s_all_params v full 0 0))) as Hn'.
    { rewrite <- (s_names_any v N_pl N_g). eapply sub_In; [apply s_names_sub|]. apply in_map_iff. exists (k, c). eauto. }
    assert (C : forallb (fun n => forallb (fun s => negb (String.prefix n s)) (s_constant_names v)) (map fst (s_all_params v full 0 0)) = true)
      by (destruct v; vm_compute; reflexivity).
    rewrite forallb_forall in C. specialize (C _ Hn'). rewrite forallb_forall in C. specialize (C _ Hc).
    change (k ++ String "_" (decimal i))%string with (numbered k i) in C. rewrite prefix_numbered in C. discriminate.
Qed.

(** ** the check of the Beta distributions *)
Lemma forallb_id_app a b : forallb (fun x : bool => x) (a ++ b)%list = forallb (fun x => x) a && forallb (fun x => x) b.
Proof. apply forallb_app. Qed.
End Build.
