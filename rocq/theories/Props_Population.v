(** Properties C56-C58, C72, C73: synthetic populations. *)
From Coq Require Import String Ascii List Arith Bool Reals Lra Lia ZArith.
From Verif Require Import Model_X Spec_X Proofs_X Model_Key Model_Guru Model_Population Spec_Population Proofs_Population.
Import ListNotations.
Open Scope nat_scope.

(** ** C58 *)
Definition ends_in_dat (s : string) : Prop := exists stem, s = (stem ++ ".dat")%string.
Definition has_dot (s : string) : Prop := exists a b, s = (a ++ "." ++ b)%string.
Theorem C58_extension : forall f r, ensure_dat_extension f = Some r ->
  ends_in_dat r /\ ensure_dat_extension r = Some r /\ (ends_in_dat f -> r = f) /\ (~ ends_in_dat f -> r = (f ++ ".dat")%string).
Proof.
  intros f r. unfold ensure_dat_extension at 1. destruct (ends_with f ".dat") eqn:E.
  - intros [= <-]. pose proof (proj1 (ends_with_spec f ".dat") E) as D. split; [exact D|].
    split; [unfold ensure_dat_extension; now rewrite E|]. split; [auto|]. intros N. now destruct N.
  - destruct (has_char "." f); cbn [negb]; [discriminate|]. intros [= <-].
    assert (D : ends_in_dat (f ++ ".dat")) by now exists f.
    split; [exact D|]. split; [|split; auto].
    + unfold ensure_dat_extension. now rewrite (proj2 (ends_with_spec _ _) D).
    + intros H. exfalso. apply (ends_with_spec f ".dat") in H. congruence.
Qed.
Print Assumptions C58_extension.
Theorem C58_rejected : forall f, ensure_dat_extension f = None <-> (has_dot f /\ ~ ends_in_dat f).
Proof.
  intros f. unfold ensure_dat_extension. destruct (ends_with f ".dat") eqn:E.
  - split; [discriminate|]. intros [_ N]. exfalso. apply N. now apply (ends_with_spec f ".dat").
  - assert (N : ~ ends_in_dat f) by (intros H; apply (ends_with_spec f ".dat") in H; congruence).
    destruct (has_char "." f) eqn:C; cbn [negb].
    + split; auto. intros _. split; auto. apply has_char_spec in C. exact C.
    + split; [discriminate|]. intros [H _]. exfalso. apply (has_char_spec "." f) in H. congruence.
Qed.
Print Assumptions C58_rejected.
Example C58_nonvacuous : ensure_dat_extension "event_{}" = Some "event_{}.dat"%string /\ ensure_dat_extension "a.txt" = None.
Proof. split; reflexivity. Qed.

(** ** C56 *)
Definition mass_1 := "mass_1_source"%string.
Definition mass_2 := "mass_2_source"%string.
(** Row by row: the masses are a reordering of the drawn masses with the larger one first, every
    other column and the component labels are unchanged. The returned population is the raw one, or
    a selection of its rows by positions that apply to the labels as well. *)
Theorem C56_rows : forall sample sel choice parameters size key raw raw_idx pop idx drawn labels i1 i2,
  generate_population sample sel choice parameters size key = Some (raw, raw_idx, pop, idx) ->
  sample key (match sel with Some _ => size + 10000 | None => size end) = (drawn, labels) ->
  (forall r, In r drawn -> length r = length parameters) ->
  index_of parameters mass_1 = Some i1 -> index_of parameters mass_2 = Some i2 ->
  length raw = length drawn /\ raw_idx = labels
  /\ (forall k, k < length drawn -> let old := nth k drawn [] in let new := nth k raw [] in
       length new = length old
       /\ (forall j, j <> i1 -> j <> i2 -> cell j new = cell j old)
       /\ (cell i1 old <> NaN -> cell i2 old <> NaN ->
            xleb (cell i2 new) (cell i1 new) = true
            /\ ((cell i1 new = cell i1 old /\ cell i2 new = cell i2 old)
                \/ (cell i1 new = cell i2 old /\ cell i2 new = cell i1 old))))
  /\ match sel with
     | None => pop = raw /\ idx = raw_idx
     | Some _ => exists index, pop = map (take [] raw) index /\ idx = map (take 0 raw_idx) index
     end.
Proof.
  intros sample sel choice ps size key raw raw_idx pop idx drawn labels i1 i2 H Hs Hr H1 H2.
  unfold generate_population in H. rewrite Hs in H.
  change "mass_1_source"%string with mass_1 in H. change "mass_2_source"%string with mass_2 in H. rewrite H1, H2 in H.
  assert (Hn : i1 <> i2).
  { intros ->. assert (mass_1 = mass_2) by (eapply index_of_inj; eauto). discriminate. }
  pose proof (proj1 (index_of_lt _ _ _ H1)) as B1. pose proof (proj1 (index_of_lt _ _ _ H2)) as B2.
  assert (Main : raw = map (order_masses i1 i2) drawn /\ raw_idx = labels
     /\ match sel with None => pop = raw /\ idx = raw_idx
        | Some _ => exists index, pop = map (take [] raw) index /\ idx = map (take 0 raw_idx) index end).
  { destruct sel; injection H as <- <- <- <-; repeat split; auto. now eexists. }
  destruct Main as [-> [-> Sel]]. split; [apply map_length|]. split; [reflexivity|]. split; [|exact Sel].
  intros k Hk old new. assert (Ho : In old drawn) by (apply nth_In; auto).
  assert (En : new = order_masses i1 i2 old).
  { unfold new. rewrite (nth_indep _ [] (order_masses i1 i2 [])) by now rewrite map_length. apply map_nth. }
  rewrite En. specialize (Hr old Ho).
  destruct (order_masses_spec i1 i2 old Hn ltac:(lia) ltac:(lia)) as [A [B [C D]]].
  split; [exact D|]. split; [exact C|]. intros F1 F2. rewrite A, B. apply max_min_spec; auto.
Qed.
Print Assumptions C56_rows.
(** With a selection function, as many rows as requested are returned and each has a finite
    log-selection value, provided some row has one and the sampler draws only positions of positive weight. *)
Theorem C56_selection : forall sample f choice parameters size key raw raw_idx pop idx,
  generate_population sample (Some f) choice parameters size key = Some (raw, raw_idx, pop, idx) ->
  length (f raw) = length raw ->
  (forall k w n, length (choice k w n) = n) ->
  (forall k w n i, In i (choice k w n) -> i < length w /\ exists p, nth i w NaN = Fin p /\ (0 < p)%R) ->
  (exists v, In (Fin v) (f raw)) ->
  length pop = size /\ length idx = size
  /\ forall r, In r pop -> exists k v, nth k raw [] = r /\ nth k (f raw) NaN = Fin v.
Proof.
  intros sample f choice ps size key raw raw_idx pop idx H Hl Hc Hp [v0 Hv0].
  unfold generate_population in H.
  destruct (sample key (size + 10000)) as [drawn labels]. destruct (index_of ps "mass_1_source") as [i1|]; [|discriminate].
  destruct (index_of ps "mass_2_source") as [i2|]; [|discriminate].
  injection H as <- <- <- <-. set (raw := map (order_masses i1 i2) drawn) in *.
  rewrite !map_length, !Hc. split; [reflexivity|]. split; [reflexivity|].
  intros r Hr. apply in_map_iff in Hr. destruct Hr as [i [<- Hi]]. destruct (Hp _ _ _ _ Hi) as [Li [p [Ep Pp]]].
  assert (Ls : i < length (map nan_to_neginf (f raw))).
  { unfold softmax in Li. rewrite map_length, map_length in Li. exact Li. }
  assert (HF : List.Forall fin_or_ninf (map nan_to_neginf (f raw))).
  { apply List.Forall_forall. intros x Hx. apply in_map_iff in Hx. destruct Hx as [y [<- _]]. apply nan_to_neginf_fon. }
  destruct (softmax_spec (map nan_to_neginf (f raw)) i HF) as [w [Ew [_ Hw]]]; auto.
  { exists v0. apply in_map_iff. exists (Fin v0). split; [reflexivity|exact Hv0]. }
  rewrite Ew in Ep. injection Ep as ->. apply Hw in Pp. destruct Pp as [v Ev].
  rewrite map_length in Ls. change NaN with NaN in Ev.
  exists i, v. split.
  - unfold take. rewrite Hl in Ls. f_equal. lia.
  - rewrite (nth_indep _ NaN (nan_to_neginf NaN)) in Ev by now rewrite map_length. rewrite map_nth in Ev.
    destruct (nth i (f raw) NaN); try discriminate. exact Ev.
Qed.
Print Assumptions C56_selection.
(** Swapping the masses does not swap the spins: a row whose masses are swapped describes another binary. *)
Theorem C56_components_refuted : exists drawn raw,
  generate_population (fun _ _ => ([drawn], [0])) None (fun _ _ _ => []) [mass_1; mass_2; "a_1"; "a_2"]%string 1 (Seed 0)
    = Some ([raw], [0], [raw], [0])
  /\ raw <> drawn /\ raw <> [cell 1 drawn; cell 0 drawn; cell 3 drawn; cell 2 drawn].
Proof.
  exists [Fin 1; Fin 2; Fin 3; Fin 4]%R. unfold generate_population. cbn.
  unfold order_masses, xmin, xmax. cbn.
  destruct (Rle_dec 1 2); [|lra]. destruct (Rle_dec (- (1)) (- (2))); [lra|]. cbn.
  eexists. split; [reflexivity|]. rewrite ?Ropp_involutive. split; intros [= E]; lra.
Qed.
Print Assumptions C56_components_refuted.
Example C56_nonvacuous :
  index_of [mass_2; "z"; mass_1]%string mass_1 = Some 2 /\ index_of [mass_2; "z"; mass_1]%string mass_2 = Some 0.
Proof. split; reflexivity. Qed.

(** ** C57 *)
Lemma events_nth ps sz tc gb hs keys : forall data index results,
  events ps sz tc gb hs keys index data = Some results ->
  length results = length data
  /\ forall e, e < length data ->
     let fl := fill sz hs (length hs) (index + e) 0 (nth e data []) keys (gb (index + e)) in
     let kept := filter complete (snd fl) in
     used_keys (nth e results (Event [] None None)) = fst fl
     /\ (kept = [] -> nth e results (Event [] None None) = Event (fst fl) None None)
     /\ (kept <> [] -> exists m, add_mean_and_covariance kept ps tc = Some m
          /\ nth e results (Event [] None None) = Event (fst fl) (Some kept) (Some m)).
Proof.
  induction data as [|d data IH]; intros index results H; cbn [events] in H.
  - injection H as <-. split; [reflexivity|]. intros e He. cbn in He. lia.
  - destruct (fill sz hs (length hs) index 0 d keys (gb index)) as [ks noisy] eqn:F.
    change (filter (fun r => negb (existsb isnan r)) noisy) with (filter complete noisy) in H.
    assert (Next : forall r0 rest, option_map (cons r0) (events ps sz tc gb hs keys (S index) data) = Some rest ->
      exists rest', events ps sz tc gb hs keys (S index) data = Some rest' /\ rest = r0 :: rest').
    { intros r0 rest E. destruct (events ps sz tc gb hs keys (S index) data) as [rest'|]; cbn in E; [|discriminate].
      injection E as <-. now exists rest'. }
    assert (Go : forall r0, used_keys r0 = ks ->
       (filter complete noisy = [] -> r0 = Event ks None None) ->
       (filter complete noisy <> [] -> exists m, add_mean_and_covariance (filter complete noisy) ps tc = Some m
          /\ r0 = Event ks (Some (filter complete noisy)) (Some m)) ->
       option_map (cons r0) (events ps sz tc gb hs keys (S index) data) = Some results ->
       length results = length (d :: data) /\ forall e, e < length (d :: data) ->
     let fl := fill sz hs (length hs) (index + e) 0 (nth e (d :: data) []) keys (gb (index + e)) in
     let kept := filter complete (snd fl) in
     used_keys (nth e results (Event [] None None)) = fst fl
     /\ (kept = [] -> nth e results (Event [] None None) = Event (fst fl) None None)
     /\ (kept <> [] -> exists m, add_mean_and_covariance kept ps tc = Some m
          /\ nth e results (Event [] None None) = Event (fst fl) (Some kept) (Some m))).
    { intros r0 A B C E. destruct (Next _ _ E) as [rest' [E' ->]]. destruct (IH _ _ E') as [L N].
      split; [cbn; now rewrite L|]. intros [|e] He.
      - rewrite Nat.add_0_r. cbn [nth]. rewrite F. cbn [fst snd]. auto.
      - cbn [nth]. cbn in He. specialize (N e ltac:(lia)). rewrite Nat.add_succ_r. exact N. }
    destruct (filter complete noisy) as [|k0 kept] eqn:K; cbn [length Nat.ltb Nat.leb] in H.
    + apply (Go (Event ks None None)); auto. easy.
    + destruct (add_mean_and_covariance (k0 :: kept) ps tc) as [m|] eqn:A; [|discriminate].
      apply (Go (Event ks (Some (k0 :: kept)) (Some m))); auto; [discriminate|]. intros _. now exists m.
Qed.
Lemma used_keys_spec ps sz tc reg gb key data results : add_error ps sz tc reg gb key data = Some results ->
  length results = length data /\
  forall e, e < length data -> used_keys (nth e results (Event [] None None))
    = map (fun g => Child key (e * length reg + g)) (seq 0 (length reg)).
Proof.
  unfold add_error, heads. set (hsf := map_opt _ reg). destruct hsf as [hs|] eqn:E; [|discriminate].
  pose proof (map_opt_length _ _ _ E) as Lh. intros H.
  destruct (events_nth _ _ _ _ _ _ _ _ _ H) as [L N]. split; [exact L|]. intros e He.
  destruct (N e He) as [U _]. rewrite U. cbn [Nat.add]. rewrite fill_keys, Lh. apply map_ext_in. intros g Hg. apply in_seq in Hg.
  apply take_split. nia.
Qed.
(** all keys used for one realization are distinct, there is one per event and group, and they come
    from the realization's own key *)
Theorem C57_distinct_keys : forall ps sz tc registry garbage key data results,
  add_error ps sz tc registry garbage key data = Some results ->
  NoDup (concat (map used_keys results))
  /\ (forall r, In r results -> length (used_keys r) = length registry)
  /\ length results = length data
  /\ forall k, In k (concat (map used_keys results)) -> exists i, k = Child key i.
Proof.
  intros ps sz tc reg gb key data results H. destruct (used_keys_spec _ _ _ _ _ _ _ _ H) as [L N].
  set (G := length reg) in *.
  assert (E : map used_keys results = map (fun e => map (fun g => Child key (e * G + g)) (seq 0 G)) (seq 0 (length data))).
  { apply (nth_ext _ _ [] []).
    - now rewrite !map_length, seq_length.
    - intros e He. rewrite map_length, L in He.
      rewrite (nth_indep (map used_keys results) [] (used_keys (Event [] None None))) by (rewrite map_length; lia).
      rewrite map_nth, N by auto.
      rewrite (nth_indep _ [] ((fun e => map (fun g => Child key (e * G + g)) (seq 0 G)) 0)) by now rewrite map_length, seq_length.
      rewrite (map_nth (fun e => map (fun g => Child key (e * G + g)) (seq 0 G))). rewrite seq_nth by auto. reflexivity. }
  assert (C : concat (map used_keys results) = map (Child key) (seq 0 (length data * G))).
  { rewrite E. generalize (length data). intros n. induction n as [|n IH]; auto.
    rewrite seq_S, map_app, concat_app, IH. cbn [map concat]. rewrite app_nil_r.
    replace (S n * G) with (n * G + G) by lia. rewrite seq_app, map_app. f_equal. cbn [Nat.add].
    assert (S : forall a b, seq a b = map (fun g => a + g) (seq 0 b)).
    { intros a b. induction b as [|b IHb]; auto. rewrite !seq_S, map_app, IHb. reflexivity. }
    rewrite (S (n * G) G), map_map. reflexivity. }
  rewrite C. split; [|split; [|split]].
  - apply FinFun.Injective_map_NoDup; [intros a b [= Eab]; exact Eab|apply seq_NoDup].
  - intros r Hr. destruct (In_nth _ _ (Event [] None None) Hr) as [e [He <-]]. rewrite N by lia. now rewrite map_length, seq_length.
  - exact L.
  - intros k Hk. apply in_map_iff in Hk. destruct Hk as [i [<- _]]. now exists i.
Qed.
Print Assumptions C57_distinct_keys.
(** errors of two different realizations use different keys *)
Theorem C57_realizations_distinct : forall n key a b da db ps sz tc registry ga gb ra rb ka kb,
  a < n -> b < n -> a <> b ->
  add_error ps sz tc registry ga (nth a (error_keys n key) (Seed 0)) da = Some ra ->
  add_error ps sz tc registry gb (nth b (error_keys n key) (Seed 0)) db = Some rb ->
  In ka (concat (map used_keys ra)) -> In kb (concat (map used_keys rb)) -> ka <> kb.
Proof.
  intros n key a b da db ps sz tc reg ga gb ra rb ka kb Ha Hb Hab Ea Eb Ia Ib.
  destruct (C57_distinct_keys _ _ _ _ _ _ _ _ Ea) as [_ [_ [_ Ca]]]. destruct (C57_distinct_keys _ _ _ _ _ _ _ _ Eb) as [_ [_ [_ Cb]]].
  destruct (Ca ka Ia) as [i ->]. destruct (Cb kb Ib) as [j ->].
  assert (E : forall c, c < n -> nth c (error_keys n key) (Seed 0) = Child key c).
  { intros c Hc. unfold error_keys, split_n. rewrite (nth_indep _ _ (Child key 0)) by now rewrite map_length, seq_length.
    now rewrite map_nth, seq_nth. }
  rewrite !E by auto. intros [= E1 _]. lia.
Qed.
Print Assumptions C57_realizations_distinct.
(** but the keys of the errors are not separate from the keys of the populations: the run's key is split
    twice, so the errors of the second realization are drawn with the keys that drew the populations, and
    the key of the first realization's errors is the key that drew the number of events *)
Theorem C57_population_keys_refuted : forall n key ps sz tc registry garbage data results e,
  1 < n -> add_error ps sz tc registry garbage (nth 1 (error_keys n key) (Seed 0)) data = Some results ->
  e < length data -> e < n -> length registry = 1 ->
  used_keys (nth e results (Event [] None None)) = [nth e (population_keys n key) (Seed 0)]
  /\ nth 0 (error_keys n key) (Seed 0) = poisson_key key.
Proof.
  intros n key ps sz tc reg gb data results e Hn H He Hen Hr.
  destruct (used_keys_spec _ _ _ _ _ _ _ _ H) as [_ N]. rewrite N by auto. rewrite Hr. cbn [seq map].
  assert (E : forall k c, c < n -> nth c (split_n k n) (Seed 0) = Child k c).
  { intros k c Hc. unfold split_n. rewrite (nth_indep _ _ (Child k 0)) by now rewrite map_length, seq_length.
    now rewrite map_nth, seq_nth. }
  unfold error_keys, population_keys. rewrite !E by lia. cbn. split; [|reflexivity]. do 2 f_equal. lia.
Qed.
Print Assumptions C57_population_keys_refuted.

(** ** C72 *)
(** For every event: the table before dropping rows has in column [nth k head] of row [j] the [k]-th value
    returned in row [j] by the error function of that group for the event's values and the event's key; the
    posterior file holds exactly its rows without NaN, in order; it is absent (and so are the
    moments) exactly when there is no such row. *)
Theorem C72_posteriors : forall ps sz tc registry garbage key data results hs,
  add_error ps sz tc registry garbage key data = Some results ->
  heads ps registry = Some hs ->
  NoDup (concat (map fst hs)) ->
  (forall names f, In (names, f) registry -> forall v k, length (f v sz k) = sz /\ forall r, In r (f v sz k) -> length r = length names) ->
  (forall e, length (garbage e) = sz /\ forall r, In r (garbage e) -> length r = length ps) ->
  forall e, e < length data -> exists table,
    length table = sz /\ (forall r, In r table -> length r = length ps)
    /\ (forall g k j, g < length registry -> k < length (fst (nth g registry ([], fun _ _ _ => []))) -> j < sz ->
        let head := fst (nth g hs ([], fun _ _ _ => [])) in
        let f := snd (nth g registry ([], fun _ _ _ => [])) in
        cell (nth k head 0) (nth j table [])
        = nth k (nth j (f (map (fun c => cell c (nth e data [])) head) sz
                          (nth g (used_keys (nth e results (Event [] None None))) (Seed 0))) []) NaN)
    /\ (forall j c, ~ In c (concat (map fst hs)) -> cell c (nth j table []) = cell c (nth j (garbage e) []))
    /\ (filter complete table = [] -> posterior (nth e results (Event [] None None)) = None
                                      /\ moments (nth e results (Event [] None None)) = None)
    /\ (filter complete table <> [] -> posterior (nth e results (Event [] None None)) = Some (filter complete table)
         /\ exists m, moments (nth e results (Event [] None None)) = Some m
                      /\ add_mean_and_covariance (filter complete table) ps tc = Some m).
Proof.
  intros ps sz tc reg gb key data results hs H Hh Nd Hs Hg e He.
  destruct (used_keys_spec _ _ _ _ _ _ _ _ H) as [_ U].
  unfold add_error in H. rewrite Hh in H. pose proof (map_opt_length _ _ _ Hh) as Lh.
  assert (Nth : forall g, g < length reg -> let rg := nth g reg ([], fun _ _ _ => []) in let hg := nth g hs ([], fun _ _ _ => []) in
     map_opt (index_of ps) (fst rg) = Some (fst hg) /\ snd hg = snd rg).
  { intros g Hgl rg hg. pose proof (map_opt_nth _ _ _ g ([], fun _ _ _ => []) ([], fun _ _ _ => []) Hh Hgl) as M.
    change (option_map (fun h => (h, snd rg)) (map_opt (index_of ps) (fst rg)) = Some hg) in M. 
    destruct (map_opt (index_of ps) (fst rg)) as [idx|]; cbn in M; [|discriminate].
    injection M as M. rewrite <- M. cbn. auto. }
  assert (Sh : List.Forall (shaped sz (length ps)) hs).
  { apply List.Forall_forall. intros hf Hin. destruct (In_nth _ _ ([], fun _ _ _ => []) Hin) as [g [Hgl E]].
    rewrite Lh in Hgl. destruct (Nth g Hgl) as [A B]. rewrite E in A, B.
    assert (Hreg : In (nth g reg ([], fun _ _ _ => [])) reg) by now apply nth_In.
    destruct (nth g reg ([], fun _ _ _ => [])) as [names f]. cbn [fst snd] in A, B. specialize (Hs names f Hreg).
    pose proof (map_opt_length _ _ _ A) as Ln. split.
    - intros h Hin'. destruct (In_nth _ _ 0 Hin') as [k [Hk Ek]]. rewrite Ln in Hk.
      pose proof (map_opt_nth _ _ _ k EmptyString 0 A Hk) as M. rewrite Ek in M. now apply index_of_lt in M.
    - intros v k. rewrite B, Ln. apply Hs. }
  destruct (events_nth _ _ _ _ _ _ _ _ _ H) as [L N]. destruct (N e He) as [_ [N1 N2]]. cbn [Nat.add] in N1, N2.
  set (keys := split_n key _) in *. destruct (Hg e) as [Hg1 Hg2].
  destruct (fill_cells sz (length ps) hs (length hs) e (nth e data []) keys Sh Nd 0 (gb e) Hg1 Hg2) as [A [B [C D]]].
  exists (snd (fill sz hs (length hs) e 0 (nth e data []) keys (gb e))).
  split; [exact A|]. split; [exact B|]. split; [|split; [exact C|split]].
  - intros g k j Hgl Hk Hj. destruct (Nth g Hgl) as [E1 E2]. pose proof (map_opt_length _ _ _ E1) as Lk.
    cbv zeta. rewrite <- E2. rewrite D by (auto; lia). cbn [Nat.add].
    rewrite U by auto. unfold keys.
    rewrite (nth_indep _ (Seed 0) ((fun g => Child key (e * length reg + g)) 0)) by now rewrite map_length, seq_length.
    rewrite (map_nth (fun g => Child key (e * length reg + g))), seq_nth by auto. cbn [Nat.add].
    rewrite Lh. rewrite take_split by nia. reflexivity.
  - intros E. rewrite (N1 E). auto.
  - intros E. destruct (N2 E) as [m [Em ->]]. cbn. split; auto. now exists m.
Qed.
Print Assumptions C72_posteriors.
(** a parameter without an error function keeps whatever was in the uninitialised array *)
Theorem C72_uncovered_refuted : forall junk : R, exists results,
  add_error ["a"; "b"]%string 2 (Some []) [(["a"]%string, fun v n _ => repeat v n)]
    (fun _ => [[Fin 0; Fin junk]; [Fin 0; Fin junk]]) (Seed 0) [[Fin 5; Fin 7]]%R = Some results
  /\ posterior (nth 0 results (Event [] None None)) = Some [[Fin 5; Fin junk]; [Fin 5; Fin junk]]%R.
Proof.
  intros junk. unfold add_error, heads. cbn. unfold add_mean_and_covariance. cbn.
  destruct (Req_EM_T (1 + 1) 0); [lra|]. cbn. eexists. split; reflexivity.
Qed.
Print Assumptions C72_uncovered_refuted.

(** ** C73 *)
(** finite samples, at least two: means and covariances are the sample ones, covariances outside every tile are 0 *)
Theorem C73_moments : forall data ps tc, (1 < length data) -> NoDup ps ->
  (forall r, In r data -> length r = length ps) ->
  (forall ts, tc = Some ts -> forall t, In t ts -> incl t ps) ->
  exists means covs, add_mean_and_covariance (of_reals data) ps tc = Some (means, covs)
  /\ length means = length ps
  /\ (forall j, j < length ps -> nth j means NaN = Fin (sample_mean data j))
  /\ match tc with
     | Some ts => exists m, covs = Matrix m /\ forall i j, i < length ps -> j < length ps ->
         (in_common_tile ps ts i j -> m i j = Fin (sample_cov data i j))
         /\ (~ in_common_tile ps ts i j -> m i j = Fin 0)
     | None => (length ps <> 1 -> exists m, covs = Matrix m /\ forall i j, i < length ps -> j < length ps -> m i j = Fin (sample_cov data i j))
               /\ (length ps = 1 -> covs = Scalar (Fin (sample_cov data 0 0)))
     end.
Proof.
  intros data ps tc Hd Hn Hr Ht.
  assert (Mean : map (col_mean (of_reals data)) (seq 0 (length ps)) = map (fun j => Fin (sample_mean data j)) (seq 0 (length ps))).
  { apply map_ext_in. intros j Hj. apply in_seq in Hj. apply (col_mean_real data (length ps) Hr); lia. }
  assert (NoN : existsb isnan (map (col_mean (of_reals data)) (seq 0 (length ps))) = false).
  { rewrite Mean. apply not_true_is_false. intros E. apply existsb_exists in E. destruct E as [x [Hx E]].
    apply in_map_iff in Hx. destruct Hx as [j [<- _]]. discriminate. }
  assert (Lm : length (map (col_mean (of_reals data)) (seq 0 (length ps))) = length ps) by now rewrite map_length, seq_length.
  assert (Em : forall j, j < length ps -> nth j (map (col_mean (of_reals data)) (seq 0 (length ps))) NaN = Fin (sample_mean data j)).
  { intros j Hj. rewrite Mean. rewrite (nth_indep _ NaN ((fun j => Fin (sample_mean data j)) 0)) by now rewrite map_length, seq_length.
    rewrite (map_nth (fun j => Fin (sample_mean data j))), seq_nth by auto. reflexivity. }
  unfold add_mean_and_covariance. rewrite NoN. destruct tc as [ts|].
  - specialize (Ht ts eq_refl).
    assert (T : forall ts', (forall t, In t ts' -> incl t ps) -> forall covs, exists r, tiles ps (of_reals data) ts' covs = Some r).
    { induction ts' as [|t ts' IH]; intros Hi covs; [now eexists|]. cbn [tiles].
      destruct (map_opt_total (index_of ps) t) as [idx E].
      { intros a Ha. apply index_of_in. apply (Hi t); [now left|exact Ha]. }
      rewrite E. rewrite any_nan_false.
      - apply IH. intros t' Ht'. apply Hi. now right.
      - intros a b Ha Hb. unfold cov_matrix.
        assert (B : forall k, k < length idx -> nth k idx 0 < length ps).
        { intros k Hk. pose proof (map_opt_length _ _ _ E) as L. rewrite L in Hk.
          pose proof (map_opt_nth _ _ _ k EmptyString 0 E Hk) as M. now apply index_of_lt in M. }
        rewrite (col_cov_real data (length ps) Hr) by (auto; lia). discriminate. }
    destruct (T ts Ht (fun _ _ => Fin 0)) as [r E]. rewrite E. do 2 eexists. split; [reflexivity|].
    split; [exact Lm|]. split; [exact Em|]. exists r. split; [reflexivity|]. intros i j Hi Hj.
    rewrite (tiles_spec _ _ _ _ _ E).
    assert (TH : tile_hit ps ts i j = true <-> in_common_tile ps ts i j).
    { clear E T. unfold in_common_tile. induction ts as [|t ts IH]; cbn [tile_hit].
      - split; [discriminate|]. now intros [t [[] _]].
      - destruct (map_opt_total (index_of ps) t) as [idx E].
        { intros a Ha. apply index_of_in. apply (Ht t); [now left|exact Ha]. }
        rewrite E, orb_true_iff, andb_true_iff, !mem_spec, (tile_idx_spec ps t idx i Hn E Hi), (tile_idx_spec ps t idx j Hn E Hj).
        rewrite IH by (intros t' Ht'; apply Ht; now right). split.
        + intros [[A B]|[t' [A B]]]; [exists t; split; [now left|auto]|exists t'; split; [now right|auto]].
        + intros [t' [[->|A] B]]; [left; auto|right; now exists t']. }
    split; intros HT.
    + apply TH in HT. rewrite HT. now apply (col_cov_real data (length ps) Hr).
    + destruct (tile_hit ps ts i j); [exfalso; apply HT; now apply TH|reflexivity].
  - assert (C : forall i j, i < length ps -> j < length ps -> cov_matrix (seq 0 (length ps)) (of_reals data) i j = Fin (sample_cov data i j)).
    { intros i j Hi Hj. unfold cov_matrix. rewrite !seq_nth by auto. now apply (col_cov_real data (length ps) Hr). }
    rewrite any_nan_false by (intros a b Ha Hb; rewrite C by auto; discriminate).
    do 2 eexists. split; [reflexivity|]. split; [exact Lm|]. split; [exact Em|]. split.
    + intros Hne. destruct (Nat.eqb_spec (length ps) 1); [easy|]. eexists. split; [reflexivity|]. exact C.
    + intros E1. rewrite E1. cbn [Nat.eqb]. rewrite <- C, E1 by lia. reflexivity.
Qed.
Print Assumptions C73_moments.
(** An event with a single usable sample passes the check on the number of rows but makes the whole run fail. *)
Theorem C73_single_sample_refuted : forall x ps, length x = length ps -> 0 < length ps ->
  add_mean_and_covariance (of_reals [x]) ps None = None.
Proof.
  intros x ps Hx Hp. unfold add_mean_and_covariance. destruct (existsb isnan _); auto.
  rewrite any_nan_true; auto. unfold cov_matrix. rewrite !seq_nth by auto.
  apply (col_cov_single [x] (length ps)); auto; try lia. intros r [<-|[]]. exact Hx.
Qed.
Print Assumptions C73_single_sample_refuted.
Example C73_nonvacuous : in_common_tile ["a"; "b"; "c"]%string [["a"; "c"]; ["b"]]%string 0 2
  /\ ~ in_common_tile ["a"; "b"; "c"]%string [["a"; "c"]; ["b"]]%string 0 1.
Proof.
  split.
  - exists ["a"; "c"]%string. cbn. auto.
  - intros [t [[<-|[<-|[]]] [A B]]]; cbn in A, B; intuition discriminate.
Qed.
(** two events with one error function for two columns *)
Example C72_nonvacuous : exists results,
  add_error ["a"; "b"]%string 2 (Some []) [(["b"; "a"]%string, fun v n _ => repeat v n)]
    (fun _ => [[NaN; NaN]; [NaN; NaN]]) (Seed 0) [[Fin 5; Fin 7]; [Fin 6; Fin 8]]%R = Some results
  /\ map posterior results = [Some [[Fin 5; Fin 7]; [Fin 5; Fin 7]]; Some [[Fin 6; Fin 8]; [Fin 6; Fin 8]]]%R
  /\ map used_keys results = [[Child (Seed 0) 0]; [Child (Seed 0) 1]].
Proof.
  unfold add_error, heads. cbn. unfold add_mean_and_covariance. cbn.
  destruct (Req_EM_T (1 + 1) 0); [lra|]. cbn. eexists. split; [reflexivity|]. split; reflexivity.
Qed.
