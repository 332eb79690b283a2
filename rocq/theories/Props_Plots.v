(** The plotting scripts see the samples that were saved (C125), name what
    they show (C126), and plot diagnostics of the draws they say (C127). *)
From Coq Require Import String Ascii List Arith Bool Reals Lia Lra Permutation.
From Verif Require Import Model_Guru Model_Plots Spec_Plots Proofs_Plots.
Import ListNotations.
Open Scope nat_scope.

(** ** C125 *)

(** The convergence scripts read every row of a chain, whichever of the two
    comment marks the sampler wrote; also after rows have been appended. *)
Theorem C125_chains {num} (fmt : num -> string) parse mark labels rows more :
  numeral_format fmt parse ->
  mark = "# "%string \/ mark = "#"%string ->
  table labels rows ->
  Forall (fun r => length r = length labels) more ->
  load_chain parse (savetxt fmt mark labels rows) = Some rows /\
  load_chain parse (appendtxt fmt (savetxt fmt mark labels rows) more) = Some (rows ++ more).
Proof.
  intros F M T E. split; [now apply load_hash|].
  rewrite appendtxt_savetxt. apply load_hash; auto. now apply table_app.
Qed.
Print Assumptions C125_chains.

(** Reading after the first line gives every row of every kind of file. *)
Theorem C125_after_header {num} (fmt : num -> string) parse mark labels rows more :
  numeral_format fmt parse -> table labels rows ->
  Forall (fun r => length r = length labels) more ->
  load_after_header parse (savetxt fmt mark labels rows) = Some rows /\
  load_after_header parse (appendtxt fmt (savetxt fmt mark labels rows) more)
    = Some (rows ++ more).
Proof.
  intros F T E. split; [now apply load_after|].
  rewrite appendtxt_savetxt. apply load_after; auto. now apply table_app.
Qed.
Print Assumptions C125_after_header.

(** hist_overplot reads every value of the column asked for. *)
Theorem C125_hist {num} (fmt : num -> string) parse mark labels rows k name :
  numeral_format fmt parse ->
  mark = "# "%string \/ mark = "#"%string ->
  table labels rows -> rows <> [] -> nth_error labels k = Some name ->
  load_hist parse (savetxt fmt mark labels rows) name = Some (values k rows).
Proof. intros. now apply load_hist_ok. Qed.
Print Assumptions C125_hist.

(** The scatter scripts and the reader of events get the column asked for
    from the files of a synthetic catalogue. *)
Theorem C125_events {num} (fmt : num -> string) parse labels rows k name :
  numeral_format fmt parse -> table labels rows -> nth_error labels k = Some name ->
  load_column parse (savetxt fmt "" labels rows) name = Some (values k rows).
Proof. intros. now apply load_column_bare. Qed.
Print Assumptions C125_events.

(** chain_plot, corner_plot and corner_overplot lose the first sample of
    every file, and fail on a file with no sample. *)
Theorem C125_first_sample_refuted {num} (fmt : num -> string) parse mark labels :
  numeral_format fmt parse ->
  (forall r rest, table labels (r :: rest) ->
     load_corner parse (savetxt fmt mark labels (r :: rest)) = Some (map (map Some) rest)) /\
  load_corner parse (savetxt fmt mark labels []) = None.
Proof.
  intro F. split; [|reflexivity]. intros r rest T. now apply corner_loses_first.
Qed.
Print Assumptions C125_first_sample_refuted.

(** From a sampler's file the scatter scripts get, under every name, the
    values of the next parameter; the last column is empty. *)
Theorem C125_shifted_refuted {num} (fmt : num -> string) parse labels rows k name :
  numeral_format fmt parse -> table labels rows -> nth_error labels k = Some name ->
  load_column parse (savetxt fmt "# " labels rows) name = Some (values (S k) rows) /\
  (S k = length labels -> Forall (fun v => v = None) (values (S k) rows)).
Proof.
  intros F T E. split; [now apply load_column_shifted|].
  intro L. unfold values. apply Forall_map. destruct T as (_ & _ & _ & T).
  eapply Forall_impl; [|exact T]. cbn beta. intros r Lr. apply nth_error_None. lia.
Qed.
Print Assumptions C125_shifted_refuted.

(** From the chain files of the numpyro driver they get every column but the
    first, which is not found. *)
Theorem C125_first_column_refuted {num} (fmt : num -> string) parse first labels rows :
  numeral_format fmt parse -> table (first :: labels) rows ->
  load_column parse (savetxt fmt "#" (first :: labels) rows) first = None /\
  forall k name, nth_error labels k = Some name ->
    load_column parse (savetxt fmt "#" (first :: labels) rows) name = Some (values (S k) rows).
Proof.
  intros F T. destruct (load_column_hash_first fmt parse F first labels rows T) as [A B].
  split; [exact A|]. intros k name E. now apply B.
Qed.
Print Assumptions C125_first_column_refuted.

(** The convergence scripts reject the files of a synthetic catalogue, whose
    header is not a comment. *)
Theorem C125_catalogue_refuted {num} (fmt : num -> string) (parse : string -> option num) labels rows name :
  table labels rows -> In name labels -> parse name = None ->
  load_chain parse (savetxt fmt "" labels rows) = None.
Proof. intros. eapply load_chain_bare; eauto. Qed.
Print Assumptions C125_catalogue_refuted.

Lemma sample_table : table ["m1"; "m2"]%string [[3; 1]; [40; 2]; [5; 6]].
Proof.
  repeat split; try discriminate.
  - constructor; [intros [E|[]]; discriminate|]. constructor; [easy|constructor].
  - constructor; [|constructor; [|constructor]]; split; try discriminate;
      intros a I; cbn in I; (destruct I as [<-|[<-|[]]]; split; discriminate).
  - repeat constructor.
Qed.

Example C125_nonvacuous :
  numeral_format dec_fmt dec_parse /\
  table ["m1"; "m2"]%string [[3; 1]; [40; 2]; [5; 6]] /\
  savetxt dec_fmt "# " ["m1"; "m2"]%string [[3; 1]; [40; 2]; [5; 6]]
    = ["# m1 m2"; "3 1"; "40 2"; "5 6"]%string /\
  load_chain dec_parse ["# m1 m2"; "3 1"; "40 2"; "5 6"]%string = Some [[3; 1]; [40; 2]; [5; 6]] /\
  load_hist dec_parse ["# m1 m2"; "3 1"; "40 2"; "5 6"]%string "m2"
    = Some [Some 1; Some 2; Some 6] /\
  load_corner dec_parse ["# m1 m2"; "3 1"; "40 2"; "5 6"]%string
    = Some [[Some 40; Some 2]; [Some 5; Some 6]] /\
  load_column dec_parse ["# m1 m2"; "3 1"; "40 2"; "5 6"]%string "m1"
    = Some [Some 1; Some 2; Some 6] /\
  load_column dec_parse ["m1 m2"; "3 1"; "40 2"; "5 6"]%string "m1"
    = Some [Some 3; Some 40; Some 5] /\
  load_chain dec_parse ["m1 m2"; "3 1"; "40 2"; "5 6"]%string = None.
Proof.
  split; [apply dec_format|]. split; [apply sample_table|].
  do 6 (split; [reflexivity|]). reflexivity.
Qed.

(** ** C126 *)

(** corner_overplot puts the columns of a further file under their names
    exactly when its order differs from the first file's by exchanges of
    pairs. *)
Theorem C126_overplot_iff header header_i :
  NoDup header -> Permutation header header_i ->
  ((forall row : list nat, length row = length header ->
      exists out, reorder 0 header header_i row = Some out /\
        arranged header_i header row out)
   <-> exchanged_in_pairs header_i header).
Proof. apply reorder_right_iff. Qed.
Print Assumptions C126_overplot_iff.

(** In particular for files with the same order of columns. *)
Theorem C126_overplot_same {A} (d : A) header row :
  NoDup header -> length row = length header ->
  reorder d header header row = Some row.
Proof.
  intros D L. destruct (reorder_entries d header header row D (Permutation_refl _) L)
    as (out & E & Lo & K).
  rewrite E. f_equal. apply nth_ext with (d := d) (d' := d); [lia|]. intros k Hk.
  assert (Hh : k < length header) by lia.
  destruct (nth_error header k) as [nm|] eqn:En; [|apply nth_error_None in En; lia].
  destruct (K k nm En) as (j & Ej & O).
  assert (j = k) by (now apply (nth_error_NoDup header j k nm)). subst j.
  rewrite (nth_error_nth' out d), (nth_error_nth' row d) in O by lia. congruence.
Qed.
Print Assumptions C126_overplot_same.

(** Three columns in cyclic order are put under wrong names. *)
Theorem C126_overplot_refuted :
  reorder 0 ["m1"; "m2"; "z"]%string ["m2"; "z"; "m1"]%string [20; 1; 30] = Some [1; 30; 20] /\
  arranged ["m2"; "z"; "m1"]%string ["m1"; "m2"; "z"]%string [20; 1; 30] [30; 20; 1] /\
  ~ arranged ["m2"; "z"; "m1"]%string ["m1"; "m2"; "z"]%string [20; 1; 30] [1; 30; 20].
Proof.
  split; [reflexivity|]. split.
  - split; [reflexivity|]. intros k j name Ek Ej.
    assert (Hk : k < 3) by (apply (nth_error_Some ["m1"; "m2"; "z"]%string); congruence).
    assert (Hj : j < 3).
    { match type of Ej with nth_error ?l j = _ => apply (nth_error_Some l) end. congruence. }
    destruct k as [|[|[|k]]]; try lia; destruct j as [|[|[|j]]]; try lia; cbn in *;
      congruence.
  - intros [_ H]. specialize (H 0 2 "m1"%string eq_refl eq_refl). discriminate.
Qed.
Print Assumptions C126_overplot_refuted.

(** scatter2d draws without a given palette exactly when the labels of the
    points are all the numbers below some number. *)
Theorem C126_scatter_iff {A} labels (points : list A) :
  scatter None None labels points <> None <-> exists n, forall u, In u labels <-> u < n.
Proof.
  split; [apply scatter_succeeds|]. intros [n H].
  rewrite (scatter_groups None None labels points n); [discriminate|exact H| |discriminate].
  now rewrite (palette_contiguous labels n H).
Qed.
Print Assumptions C126_scatter_iff.

(** Then the points with label [u] are drawn together, in colour [u] and with
    the [u]-th entry of the legend, if there is one. *)
Theorem C126_scatter_groups {A} override legend labels (points : list A) n :
  (forall u, In u labels <-> u < n) ->
  (forall colours, override = Some colours -> n <= colours) ->
  (forall names, legend = Some names -> n <= length names) ->
  exists groups, scatter override legend labels points = Some groups /\ length groups = n /\
    forall u, u < n -> exists g, nth_error groups u = Some g /\
      g_points g = having u labels points /\ g_color g = u /\
      forall names, legend = Some names -> g_legend g = nth_error names u.
Proof.
  intros H Ho Hl. eexists. split.
  - apply scatter_groups; [exact H| |exact Hl]. destruct override as [c|].
    + now apply Ho.
    + now rewrite (palette_contiguous labels n H).
  - split; [now rewrite map_length, seq_length|]. intros u Hu.
    eexists. split; [rewrite nth_error_map, nth_error_seq by exact Hu; reflexivity|].
    cbn. repeat split. intros names ->. reflexivity.
Qed.
Print Assumptions C126_scatter_groups.

(** A catalogue in which a component has no event cannot be drawn, and with a
    palette and a legend for all components the names are those of others. *)
Theorem C126_scatter_refuted :
  scatter None None [0; 2; 0] ["a"; "b"; "c"]%string = None /\
  scatter (Some 3) (Some ["BBH"; "BNS"; "NSBH"]%string) [0; 2; 0] ["a"; "b"; "c"]%string
  = Some [Group ["a"; "c"]%string 0 (Some "BBH"%string); Group ["b"]%string 2 (Some "BNS"%string)].
Proof. split; reflexivity. Qed.
Print Assumptions C126_scatter_refuted.

(** The curves of the convergence scripts are one for each parameter; by
    default the k-th carries the name of the k-th chain file, and plotting
    fails unless there are as many chains as parameters. *)
Theorem C126_curves_refuted files n_params :
  (length files <> n_params -> curve_labels None files n_params = None) /\
  (length files = n_params -> curve_labels None files n_params = Some files).
Proof.
  unfold curve_labels. split; intro H.
  - apply Nat.eqb_neq in H. now rewrite H.
  - apply Nat.eqb_eq in H. now rewrite H.
Qed.
Print Assumptions C126_curves_refuted.

Example C126_nonvacuous :
  exchanged_in_pairs ["m2"; "m1"; "z"]%string ["m1"; "m2"; "z"]%string /\
  reorder 0 ["m1"; "m2"; "z"]%string ["m2"; "m1"; "z"]%string [20; 30; 1] = Some [30; 20; 1] /\
  (forall u, In u [1; 0; 1] <-> u < 2) /\
  scatter None (Some ["BBH"; "BNS"]%string) [1; 0; 1] ["a"; "b"; "c"]%string
  = Some [Group ["b"]%string 0 (Some "BBH"%string); Group ["a"; "c"]%string 1 (Some "BNS"%string)] /\
  curve_labels (Some ["m1"; "m2"]%string) ["c0"; "c1"; "c2"]%string 2 = Some ["m1"; "m2"]%string.
Proof.
  split.
  - intros k j name Ek Ej.
    assert (Hk : k < 3) by (apply (nth_error_Some ["m1"; "m2"; "z"]%string); congruence).
    assert (Hj : j < 3).
    { match type of Ej with nth_error ?l j = _ => apply (nth_error_Some l) end. congruence. }
    destruct k as [|[|[|k]]]; try lia; destruct j as [|[|[|j]]]; try lia; cbn in *;
      congruence.
  - split; [reflexivity|]. split; [|split; reflexivity].
    intro u. split; [cbn; lia|]. intro H. destruct u as [|[|u]]; cbn; lia.
Qed.

(** ** C127 *)

(** The points of the curves: [n_split] of them, in order, the last at the
    number of draws and showing the diagnostic of the whole chains. *)
Theorem C127_points {A} diag n_split (chains : list (list A)) n :
  2 <= n_split -> chains <> [] -> Forall (fun c => length c = n) chains ->
  length (evolution diag n_split chains) = n_split /\
  (forall i j d d' v v', i <= j ->
     nth_error (evolution diag n_split chains) i = Some (d, v) ->
     nth_error (evolution diag n_split chains) j = Some (d', v') -> d <= d' <= n) /\
  nth_error (evolution diag n_split chains) (n_split - 1) = Some (n, diag chains).
Proof.
  intros Hs Hc L. unfold evolution.
  assert (En : match chains with [] => 0 | c :: _ => length c end = n).
  { destruct chains; [easy|]. now inversion L. }
  rewrite En.
  assert (Hn : forall i, nth_error
     (map (fun d => (d, diag (map (sel_draws d) chains))) (draw_divisions n n_split)) i
     = option_map (fun d => (d, diag (map (sel_draws d) chains)))
         (nth_error (draw_divisions n n_split) i)).
  { intro i. apply nth_error_map. }
  split; [|split].
  - unfold draw_divisions. now rewrite !map_length, seq_length.
  - intros i j d d' v v' Hij Ei Ej. rewrite Hn in Ei, Ej.
    assert (Hj : j < n_split).
    { destruct (lt_dec j n_split) as [?|G]; [assumption|]. exfalso.
      assert (X : nth_error (draw_divisions n n_split) j = None).
      { apply nth_error_None. unfold draw_divisions. rewrite map_length, seq_length. lia. }
      rewrite X in Ej. discriminate. }
    rewrite nth_divisions in Ei, Ej by lia. cbn in Ei, Ej.
    injection Ei as <- _. injection Ej as <- _. split; [now apply division_mono|].
    transitivity (draw_division n n_split (n_split - 1)); [apply division_mono; lia|].
    now rewrite division_last.
  - rewrite Hn, nth_divisions by lia. rewrite division_last by exact Hs. cbn [option_map].
    do 3 f_equal. rewrite <- (map_id chains) at 2. apply map_ext_in. intros c I.
    rewrite Forall_forall in L. unfold sel_draws. apply firstn_all2. rewrite (L c I). lia.
Qed.
Print Assumptions C127_points.

(** Every earlier point at [d] shows the diagnostic of the first [d + 1]
    draws, not of the first [d]. *)
Theorem C127_one_more_refuted {A} diag n_split (chains : list (list A)) n i d v :
  2 <= n_split -> 1 <= n -> chains <> [] -> Forall (fun c => length c = n) chains ->
  i < n_split - 1 -> nth_error (evolution diag n_split chains) i = Some (d, v) ->
  v = diag (map (firstn (d + 1)) chains) /\
  Forall (fun c => length c = d + 1) (map (firstn (d + 1)) chains).
Proof.
  intros Hs Hn Hc L Hi E. unfold evolution in E.
  assert (En : match chains with [] => 0 | c :: _ => length c end = n).
  { destruct chains; [easy|]. now inversion L. }
  rewrite En, nth_error_map, nth_divisions in E by lia. cbn [option_map] in E.
  injection E as <- <-. rewrite Nat.add_1_r. split; [reflexivity|].
  apply Forall_map. eapply Forall_impl; [|exact L]. cbn beta. intros c Lc.
  apply firstn_length_le. rewrite Lc. pose proof (division_below n n_split i Hn Hs Hi). lia.
Qed.
Print Assumptions C127_one_more_refuted.

(** ess_plot divides by the number of draws of the training chains: the
    production column is the size per draw exactly when both have equally
    many draws (or nothing was effective). *)
Theorem C127_ess_per_draw ess_train ess_prod n_train n_prod :
  1 <= n_train -> 1 <= n_prod ->
  fst (ess_columns ess_train ess_prod n_train n_prod)
    = map (fun e => (e / INR n_train)%R) ess_train /\
  (snd (ess_columns ess_train ess_prod n_train n_prod)
     = map (fun e => (e / INR n_prod)%R) ess_prod
   <-> n_train = n_prod \/ Forall (fun e => e = 0%R) ess_prod).
Proof.
  intros Ht Hp. split; [reflexivity|]. cbn [snd ess_columns].
  assert (Pt : (0 < INR n_train)%R) by (apply lt_0_INR; lia).
  assert (Pp : (0 < INR n_prod)%R) by (apply lt_0_INR; lia).
  split.
  - intro E. destruct (Nat.eq_dec n_train n_prod) as [|N]; [now left|]. right.
    apply Forall_forall. intros e I.
    assert (X : (e / INR n_train = e / INR n_prod)%R).
    { clear -E I. induction ess_prod as [|x l IH]; [easy|]. cbn in E.
      injection E as E1 E2. destruct I as [->|I]; auto. }
    destruct (Req_dec e 0) as [|Ne]; [assumption|]. exfalso. apply N.
    apply INR_eq. apply (Rmult_eq_reg_l (e / (INR n_train * INR n_prod))).
    + replace (e / (INR n_train * INR n_prod) * INR n_train)%R with (e / INR n_prod)%R
        by (field; lra).
      replace (e / (INR n_train * INR n_prod) * INR n_prod)%R with (e / INR n_train)%R
        by (field; lra).
      congruence.
    + apply Rmult_integral_contrapositive_currified; [exact Ne|].
      apply Rinv_neq_0_compat, Rgt_not_eq. now apply Rmult_lt_0_compat.
  - intros [->|Z]; [reflexivity|]. apply map_ext_in. intros e I.
    rewrite Forall_forall in Z. rewrite (Z e I). unfold Rdiv. now rewrite !Rmult_0_l.
Qed.
Print Assumptions C127_ess_per_draw.

Example C127_nonvacuous :
  draw_divisions 10 4 = [2; 4; 7; 10] /\
  map fst (evolution (fun _ => []) 4 [seq 0 10; seq 5 10]) = [2; 4; 7; 10] /\
  map (sel_draws 2) [seq 0 10; seq 5 10] = [[0; 1; 2]; [5; 6; 7]] /\
  map (sel_draws 10) [seq 0 10; seq 5 10] = [seq 0 10; seq 5 10].
Proof. repeat split. Qed.
