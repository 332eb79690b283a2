(** C129: the files of a flowMC run. *)
From Coq Require Import Decimal DecimalString DecimalNat DecimalFacts.
From Coq Require Import String Ascii List Arith Bool ZArith Reals Lia Lra.
From Verif Require Import Model_X Model_FlowMC Proofs_FlowMC Model_Chains Proofs_Chains Spec_Chains Spec_X.
Import ListNotations.
Open Scope nat_scope.

(** ** C129 *)
(** The file of chain i (of n) is flowMC_inference/<phase>_chains_<tag>.dat, and that of its
    log-densities flowMC_inference/log_prob_<phase>_<tag>.dat, where the tag is the number i with as
    many digits as the numbers below n need. *)
Theorem C129_names : forall phase n i, i < n -> exists s,
  chain_file phase (tag n i) = ("flowMC_inference/" ++ phase ++ "_chains_" ++ s ++ ".dat")%string
  /\ log_prob_file phase (tag n i) = ("flowMC_inference/log_prob_" ++ phase ++ "_" ++ s ++ ".dat")%string
  /\ numeral s i /\ enough_digits n (String.length s).
Proof.
  intros phase n i H. exists (tag n i). split; [reflexivity|]. split; [reflexivity|].
  rewrite tag_digits, string_length.
  assert (NN : nb_digits (wide n i) <> 0).
  { rewrite wide_digits by assumption. intros E. apply nb_digits_0 in E.
    apply (unorm_nonnil (Nat.to_uint (n - 1))). now rewrite to_uint_normal. }
  split; [split|].
  - intros E. apply NN. now rewrite <- string_length, E.
  - pose proof (read_digits_value (wide n i) 0 "") as R. rewrite wide_value in R. cbn [Nat.mul Nat.add] in R.
    assert (A : forall s, (s ++ "")%string = s) by (induction s; cbn; congruence). now rewrite A in R.
  - rewrite wide_digits in * by assumption. set (d := Nat.to_uint (n - 1)) in *.
    assert (V : digits_value d = n - 1) by (unfold d; now rewrite <- of_uint_value, Unsigned.of_to).
    split.
    + pose proof (digits_value_bound d). lia.
    + intros v Hv. destruct (uint_eq_dec d Decimal.zero) as [E|E].
      * rewrite E in Hv. cbn in Hv. lia.
      * pose proof (normal_lower d (to_uint_normal _) E) as L.
        assert (10 ^ v <= 10 ^ (nb_digits d - 1)) by (apply Nat.pow_le_mono_r; lia). lia.
Qed.
Print Assumptions C129_names.
(** so that sorting the names sorts the chains *)
Theorem C129_order : forall phase n i j, i < j -> j < n ->
  String.compare (chain_file phase (tag n i)) (chain_file phase (tag n j)) = Lt
  /\ String.compare (log_prob_file phase (tag n i)) (log_prob_file phase (tag n j)) = Lt.
Proof.
  intros phase n i j H H'. unfold chain_file, log_prob_file. rewrite !compare_prefix. split; now apply tag_compare.
Qed.
Print Assumptions C129_order.

Lemma map_seq_shift {A} (f : nat -> A) t n : map f (seq t n) = map (fun j => f (t + j)) (seq 0 n).
Proof.
  revert t. induction n as [|n IH]; intros t; auto. cbn [seq map]. rewrite Nat.add_0_r. f_equal.
  rewrite IH, <- seq_shift, map_map. apply map_ext. intros j. f_equal. lia.
Qed.
Section Files.
Variables lpos gpos llp glp lacc gacc : nat -> nat -> list (list X).
Variables (nl ng n_chains n_dims t p : nat) (labels : list string).
Let o := bundle_outputs lpos gpos llp glp lacc gacc.
Hypothesis Hlpos : forall k c, length (lpos k c) = nl.
Hypothesis Hgpos : forall k c, length (gpos k c) = ng.
Hypothesis Hllp : forall k c, length (llp k c) = nl.
Hypothesis Hglp : forall k c, length (glp k c) = ng.
Hypothesis Hlacc : forall k c, length (lacc k c) = nl.
Hypothesis Hgacc : forall k c, length (gacc k c) = ng.
Lemma world_ends :
  let w1 := world1 nl ng t p n_dims o in let w2 := world2 nl ng t p n_dims o in
  (forall c, train_buffer (positions_ w1) c = history lpos gpos 0 t c)
  /\ (forall c, train_buffer (log_probs_ w1) c = history llp glp 0 t c)
  /\ (forall c, prod_buffer (positions_ w2) c = history lpos gpos t p c)
  /\ (forall c, prod_buffer (log_probs_ w2) c = history llp glp t p c)
  /\ (forall c, train_buffer (local_accs_ w2) c = history lacc (fun _ _ => fresh 1 ng) 0 t c)
  /\ (forall c, prod_buffer (local_accs_ w2) c = history lacc (fun _ _ => fresh 1 ng) t p c)
  /\ (forall c, train_buffer (global_accs_ w2) c = history (fun _ _ => fresh 1 nl) gacc 0 t c)
  /\ (forall c, prod_buffer (global_accs_ w2) c = history (fun _ _ => fresh 1 nl) gacc t p c).
Proof.
  intros w1 w2.
  assert (E1 : w1 = _) by exact (run_world_parts nl ng o (loops t training_phase) (initial_world nl ng n_dims t p)).
  assert (E2 := run_world_parts nl ng o ["reset_steppers"; "update_state"]%string w1).
  assert (E3 : w2 = _) by exact (run_world_parts nl ng o (loops p production_phase)
     (fold_left (fun w n => run_world nl ng o n w) ["reset_steppers"; "update_state"]%string w1)).
  rewrite E2 in E3. clearbody w1 w2. rewrite E1 in E3.
  cbn [positions_ log_probs_ local_accs_ global_accs_ initial_world] in E1, E3. rewrite E1, E3.
  cbn [positions_ log_probs_ local_accs_ global_accs_].
  destruct (train_end nl ng n_dims (position_rows o) (fun _ => Hlpos) (fun _ => Hgpos) t p) as (_ & _ & A & _).
  destruct (train_end nl ng 1 (log_prob_rows o) (fun _ => Hllp) (fun _ => Hglp) t p) as (_ & _ & B & _).
  destruct (prod_end nl ng n_dims (position_rows o) (fun _ => Hlpos) (fun _ => Hgpos) t p) as (_ & C).
  destruct (prod_end nl ng 1 (log_prob_rows o) (fun _ => Hllp) (fun _ => Hglp) t p) as (_ & D).
  destruct (prod_end nl ng 1 (local_acc_rows o) (fun _ => Hlacc) (fun H => False_ind _ (diff_false_true H)) t p) as (F & G).
  destruct (prod_end nl ng 1 (global_acc_rows o) (fun H => False_ind _ (diff_false_true H)) (fun _ => Hgacc) t p) as (I & J).
  split; [exact A|]. split; [exact B|]. split; [exact C|]. split; [exact D|]. split; [exact F|]. split; [exact G|].
  split; [exact I|exact J].
Qed.
End Files.

(** At the end of a run the file of every chain holds all rows of the chain in its phase, loop by loop
    the local steps then the global ones, under the labels; the files of log-densities likewise; the
    samples file holds what C48 says. No other file than these and the two of acceptances changes
    (apart from the loss file, which is not modelled). *)
Theorem C129_contents : forall lpos gpos llp glp lacc gacc nl ng n_chains n_dims t p labels,
  (forall k c, length (lpos k c) = nl) -> (forall k c, length (gpos k c) = ng) ->
  (forall k c, length (llp k c) = nl) -> (forall k c, length (glp k c) = ng) ->
  (forall k c, length (lacc k c) = nl) -> (forall k c, length (gacc k c) = ng) ->
  0 < n_dims -> 0 < t -> 0 < p ->
  exists ws, all_writes nl ng labels n_chains t p (bundle_outputs lpos gpos llp glp lacc gacc) n_dims = Some ws
  /\ forall before, let after := put_all before ws in
     (forall c, c < n_chains ->
        after (chain_file "train" (tag n_chains c)) = Some (Text ("# " ++ String.concat " " labels) (history lpos gpos 0 t c))
        /\ after (log_prob_file "train" (tag n_chains c)) = Some (Text "# train" (history llp glp 0 t c))
        /\ after (chain_file "prod" (tag n_chains c)) = Some (Text ("# " ++ String.concat " " labels) (history lpos gpos t p c))
        /\ after (log_prob_file "prod" (tag n_chains c)) = Some (Text "# prod" (history llp glp t p c)))
     /\ after "flowMC_inference/samples.dat"%string
        = Some (Text ("# " ++ String.concat " " labels)
            (concat (map (fun c => filter (fun r => negb (existsb isneginf r))
                                     (concat (map (fun j => lpos (t + j) c) (seq 0 p)))) (seq 0 n_chains))))
     /\ forall q, (forall phase c, phase = "train"%string \/ phase = "prod"%string -> c < n_chains ->
                     q <> chain_file phase (tag n_chains c) /\ q <> log_prob_file phase (tag n_chains c)) ->
          q <> "flowMC_inference/samples.dat"%string ->
          q <> "flowMC_inference/local_accs.dat"%string -> q <> "flowMC_inference/global_accs.dat"%string ->
          after q = before q.
Proof.
  intros lpos gpos llp glp lacc gacc nl ng n_chains n_dims t p labels H1 H2 H3 H4 H5 H6 Hd Ht Hp.
  pose proof (world_ends lpos gpos llp glp lacc gacc nl ng n_dims t p H1 H2 H3 H4 H5 H6) as W. cbv zeta in W.
  destruct W as (A & B & C & D & _).
  destruct (all_writes_end nl ng n_chains t p n_dims labels (bundle_outputs lpos gpos llp glp lacc gacc) Ht Hp) as (ws & E & K & O).
  exists ws. split; [exact E|]. intros before after. split; [|split].
  - intros c Hc. unfold after. apply Nat.ltb_lt in Hc.
    pose proof (K before (TrainChain c)) as K1. pose proof (K before (TrainLog c)) as K2.
    pose proof (K before (ProdChain c)) as K3. pose proof (K before (ProdLog c)) as K4.
    cbn [name_of content] in K1, K2, K3, K4. rewrite Hc in *. rewrite K1, K2, K3, K4, A, B, C, D. auto.
  - pose proof (K before Samples) as K1. cbn [name_of content] in K1. unfold after.
    change "flowMC_inference/samples.dat"%string with samples_file. rewrite K1. f_equal. f_equal.
    rewrite (save_full lpos gpos nl ng n_dims H1 H2 n_chains t p p) by
      (auto; intros c; rewrite C, Nat.sub_diag; cbn; rewrite app_nil_r; unfold history, loop_rows; f_equal; apply map_seq_shift).
    reflexivity.
  - intros q Hq Q1 Q2 Q3. apply O. intros k Hk. destruct k; cbn [name_of] in *; cbn [in_phase] in Hk; auto; apply Hq; auto; tauto.
Qed.
Print Assumptions C129_contents.

Lemma nth_history lo go nl ng f n c i : (forall k c, length (lo k c) = nl) -> (forall k c, length (go k c) = ng) ->
  i < (nl + ng) * n ->
  nth i (history lo go f n c) []
  = if i mod (nl + ng) <? nl then nth (i mod (nl + ng)) (lo (f + i / (nl + ng)) c) []
    else nth (i mod (nl + ng) - nl) (go (f + i / (nl + ng)) c) [].
Proof.
  intros L G H. unfold history. rewrite (nth_concat_uniform _ (nl + ng)) by (intros; rewrite ?app_length, ?L, ?G; lia).
  destruct (Nat.ltb_spec (i mod (nl + ng)) nl).
  - now rewrite app_nth1 by now rewrite L.
  - rewrite app_nth2 by now rewrite L. now rewrite L.
Qed.
Lemma nth_scalars (a : nat -> R) n i : i < n -> scalar (nth i (map (fun j => [Fin (a j)]) (seq 0 n)) []) = Fin (a i).
Proof.
  intros H. rewrite (nth_indep _ [] [Fin (a 0)]) by now rewrite map_length, seq_length.
  rewrite (map_nth (fun j => [Fin (a j)])), seq_nth by assumption. reflexivity.
Qed.
(** The two files of acceptances have a line for every step of the longer phase and a column for each
    phase. In the file of the local steps the entry of a step is the mean over the chains if the step is
    a local one, minus infinity if it is a global one, and NaN beyond the end of the phase; in the file
    of the global steps the other way round. *)
Theorem C129_acceptances : forall lpos gpos llp glp (la ga : nat -> nat -> nat -> R) nl ng n_chains n_dims t p labels,
  (forall k c, length (lpos k c) = nl) -> (forall k c, length (gpos k c) = ng) ->
  (forall k c, length (llp k c) = nl) -> (forall k c, length (glp k c) = ng) ->
  0 < n_chains -> 0 < t -> 0 < p ->
  let lacc k c := map (fun j => [Fin (la k c j)]) (seq 0 nl) in
  let gacc k c := map (fun j => [Fin (ga k c j)]) (seq 0 ng) in
  exists ws, all_writes nl ng labels n_chains t p (bundle_outputs lpos gpos llp glp lacc gacc) n_dims = Some ws
  /\ forall before, let after := put_all before ws in
     exists local_ global_,
       after "flowMC_inference/local_accs.dat"%string = Some (Text "#train prod" local_)
       /\ after "flowMC_inference/global_accs.dat"%string = Some (Text "#train prod" global_)
       /\ length local_ = (nl + ng) * Nat.max t p /\ length global_ = (nl + ng) * Nat.max t p
       /\ forall k j, k < Nat.max t p -> j < nl + ng ->
          let entry first n (own : bool) (mean : R) := if k <? n then (if own then Fin mean else NInf) else NaN in
          nth (k * (nl + ng) + j) local_ []
          = [entry 0 t (j <? nl) (chain_mean n_chains (fun c => la k c j));
             entry t p (j <? nl) (chain_mean n_chains (fun c => la (t + k) c j))]
          /\ nth (k * (nl + ng) + j) global_ []
          = [entry 0 t (negb (j <? nl)) (chain_mean n_chains (fun c => ga k c (j - nl)));
             entry t p (negb (j <? nl)) (chain_mean n_chains (fun c => ga (t + k) c (j - nl)))].
Proof.
  intros lpos gpos llp glp la ga nl ng n_chains n_dims t p labels H1 H2 H3 H4 Hn Ht Hp lacc gacc.
  assert (H5 : forall k c, length (lacc k c) = nl) by (intros; unfold lacc; now rewrite map_length, seq_length).
  assert (H6 : forall k c, length (gacc k c) = ng) by (intros; unfold gacc; now rewrite map_length, seq_length).
  pose proof (world_ends lpos gpos llp glp lacc gacc nl ng n_dims t p H1 H2 H3 H4 H5 H6) as W. cbv zeta in W.
  destruct W as (_ & _ & _ & _ & A & B & C & D).
  destruct (all_writes_end nl ng n_chains t p n_dims labels (bundle_outputs lpos gpos llp glp lacc gacc) Ht Hp) as (ws & E & K & _).
  exists ws. split; [exact E|]. intros before after.
  pose proof (K before LocalAcc) as K1. pose proof (K before GlobalAcc) as K2. cbn [name_of content] in K1, K2.
  set (w := world2 _ _ _ _ _ _) in *.
  set (fl := snd (save_accs "local"%string _ _ _)) in *. set (fg := snd (save_accs "global"%string _ _ _)) in *.
  pose proof (save_accs_rows "local"%string n_chains (train_steps nl ng t) (train_buffer (local_accs_ w)) (prod_steps nl ng p) (prod_buffer (local_accs_ w))) as [L1 R1].
  pose proof (save_accs_rows "global"%string n_chains (train_steps nl ng t) (train_buffer (global_accs_ w)) (prod_steps nl ng p) (prod_buffer (global_accs_ w))) as [L2 R2].
  fold fl in L1, R1. fold fg in L2, R2. unfold train_steps, prod_steps in L1, R1, L2, R2. rewrite Nat.mul_max_distr_l in L1, R1, L2, R2.
  exists (lines fl), (lines fg). split; [exact K1|]. split; [exact K2|]. split; [exact L1|]. split; [exact L2|].
  intros k j Hk Hj entry. set (i := k * (nl + ng) + j).
  assert (Mi : i mod (nl + ng) = j) by (unfold i; rewrite Nat.add_comm, Nat.mod_add, Nat.mod_small; lia).
  assert (Di : i / (nl + ng) = k) by (unfold i; rewrite Nat.add_comm, Nat.div_add, Nat.div_small; lia).
  assert (Hi : i < (nl + ng) * Nat.max t p) by (unfold i; nia).
  assert (LT : forall n, (i <? (nl + ng) * n) = (k <? n)).
  { intros n. destruct (Nat.ltb_spec k n), (Nat.ltb_spec i ((nl + ng) * n)); auto; unfold i in *; nia. }
  rewrite R1, R2, !LT by exact Hi.
  assert (G : forall f n (buf : nat -> list (list X)) lo go (a : nat -> R),
     (forall k c, length (lo k c) = nl) -> (forall k c, length (go k c) = ng) -> (forall c, buf c = history lo go f n c) ->
     (if k <? n then forall c, scalar (if j <? nl then nth j (lo (f + k) c) [] else nth (j - nl) (go (f + k) c) []) = Fin (a c) else True) ->
     (if k <? n then nth i (mean_over_chains n_chains ((nl + ng) * n) buf) NaN else NaN)
     = if k <? n then Fin (chain_mean n_chains a) else NaN).
  { intros f n buf lo go a Lo Go Hb Hs. destruct (Nat.ltb_spec k n); auto. unfold chain_mean.
    apply mean_nth_fin; [unfold i; nia|assumption|]. intros c _. rewrite Hb, (nth_history lo go nl ng) by (auto; unfold i; nia).
    rewrite Mi, Di. apply Hs. }
  assert (G' : forall f n (buf : nat -> list (list X)) lo go,
     (forall k c, length (lo k c) = nl) -> (forall k c, length (go k c) = ng) -> (forall c, buf c = history lo go f n c) ->
     (forall c, scalar (if j <? nl then nth j (lo (f + k) c) [] else nth (j - nl) (go (f + k) c) []) = NInf) ->
     (if k <? n then nth i (mean_over_chains n_chains ((nl + ng) * n) buf) NaN else NaN)
     = if k <? n then NInf else NaN).
  { intros f n buf lo go Lo Go Hb Hs. destruct (Nat.ltb_spec k n); auto.
    apply mean_nth_ninf; [unfold i; nia|assumption|]. intros c _. rewrite Hb, (nth_history lo go nl ng) by (auto; unfold i; nia).
    rewrite Mi, Di. apply Hs. }
  assert (Fl : forall k c : nat, length (fresh 1 nl) = nl) by (intros; apply fresh_length).
  assert (Fg : forall k c : nat, length (fresh 1 ng) = ng) by (intros; apply fresh_length).
  unfold entry. destruct (Nat.ltb_spec j nl) as [J|J]; cbn [negb]; split; f_equal; try f_equal.
  - apply (G 0 t _ _ _ (fun c => la k c j) H5 Fg A). destruct (k <? t); auto. intros c. now apply nth_scalars.
  - apply (G t p _ _ _ (fun c => la (t + k) c j) H5 Fg B). destruct (k <? p); auto. intros c. now apply nth_scalars.
  - apply (G' 0 t _ _ _ Fl H6 C). intros c. now apply nth_fresh.
  - apply (G' t p _ _ _ Fl H6 D). intros c. now apply nth_fresh.
  - apply (G' 0 t _ _ _ H5 Fg A). intros c. apply nth_fresh. lia.
  - apply (G' t p _ _ _ H5 Fg B). intros c. apply nth_fresh. lia.
  - apply (G 0 t _ _ _ (fun c => ga k c (j - nl)) Fl H6 C). destruct (k <? t); auto. intros c. apply nth_scalars. lia.
  - apply (G t p _ _ _ (fun c => ga (t + k) c (j - nl)) Fl H6 D). destruct (k <? p); auto. intros c. apply nth_scalars. lia.
Qed.
Print Assumptions C129_acceptances.

(** In a directory without files, the files of chains after a run are those of the chains of the run. *)
Theorem C129_clean : forall lpos gpos llp glp lacc gacc nl ng n_chains n_dims t p labels ws,
  (forall k c, length (lpos k c) = nl) -> (forall k c, length (gpos k c) = ng) ->
  (forall k c, length (llp k c) = nl) -> (forall k c, length (glp k c) = ng) ->
  (forall k c, length (lacc k c) = nl) -> (forall k c, length (gacc k c) = ng) ->
  0 < n_dims -> 0 < t -> 0 < p ->
  all_writes nl ng labels n_chains t p (bundle_outputs lpos gpos llp glp lacc gacc) n_dims = Some ws ->
  forall phase s, phase = "train"%string \/ phase = "prod"%string ->
  (exists x, put_all (fun _ => None) ws (chain_file phase s) = Some x)
  <-> exists c, c < n_chains /\ s = tag n_chains c.
Proof.
  intros lpos gpos llp glp lacc gacc nl ng n_chains n_dims t p labels ws H1 H2 H3 H4 H5 H6 Hd Ht Hp Hw phase s Hph.
  destruct (C129_contents lpos gpos llp glp lacc gacc nl ng n_chains n_dims t p labels H1 H2 H3 H4 H5 H6 Hd Ht Hp) as (ws' & E & F).
  rewrite Hw in E. injection E as <-. specialize (F (fun _ => None)). cbv zeta in F. destruct F as (F1 & _ & F3).
  split.
  - intros (x & Hx). destruct (existsb (fun c => String.eqb s (tag n_chains c)) (seq 0 n_chains)) eqn:Ex.
    + apply existsb_exists in Ex. destruct Ex as (c & Hc & Es). apply in_seq in Hc. apply String.eqb_eq in Es. exists c. split; [lia|assumption].
    + exfalso. rewrite F3 in Hx; [discriminate|..].
      * intros ph c Hp' Hc. split; intros E.
        -- apply Bool.not_true_iff_false in Ex. apply Ex. apply existsb_exists. exists c. split; [apply in_seq; lia|]. apply String.eqb_eq.
           unfold chain_file in E. apply append_inj_l in E. destruct Hph as [-> | ->], Hp' as [-> | ->]; cbn in E; try discriminate E;
             repeat (injection E as E); now apply Proofs_Numpyro.append_inj_r in E.
        -- destruct Hph as [-> | ->]; discriminate E.
      * destruct Hph as [-> | ->]; discriminate.
      * destruct Hph as [-> | ->]; discriminate.
      * destruct Hph as [-> | ->]; discriminate.
  - intros (c & Hc & ->). specialize (F1 c Hc). destruct F1 as (A & _ & B & _). destruct Hph as [-> | ->]; eauto.
Qed.
Print Assumptions C129_clean.

(** Files of an earlier run with more chains stay: after a run with 2 chains into the directory of a
    run with 3 the file of the third chain is still that of the earlier run. *)
Theorem C129_stale_refuted : exists ws3 ws2 x,
  let out k c := [[Fin (INR k)]] in
  let o := bundle_outputs out out out out out out in
  all_writes 1 1 ["a"%string] 3 1 1 o 1 = Some ws3 /\ all_writes 1 1 ["a"%string] 2 1 1 o 1 = Some ws2
  /\ let first := put_all (fun _ => None) ws3 in
     put_all first ws2 (chain_file "prod" "2") = Some x /\ first (chain_file "prod" "2") = Some x
     /\ forall c, c < 2 -> chain_file "prod" "2" <> chain_file "prod" (tag 2 c).
Proof.
  assert (E2 := fun o => all_writes_end 1 1 2 1 1 1 ["a"%string] o (le_n 1) (le_n 1)).
  set (out := fun k c : nat => [[Fin (INR k)]]). 
  assert (L : forall k c : nat, length (out k c) = 1) by reflexivity.
  destruct (C129_contents out out out out out out 1 1 3 1 1 1 ["a"%string] L L L L L L (le_n 1) (le_n 1) (le_n 1)) as (ws3 & A3 & B3).
  destruct (C129_contents out out out out out out 1 1 2 1 1 1 ["a"%string] L L L L L L (le_n 1) (le_n 1) (le_n 1)) as (ws2 & A2 & B2).
  destruct (B3 (fun _ => None)) as (C3 & _). destruct (C3 2) as (_ & _ & P & _); [lia|].
  exists ws3, ws2. eexists. cbv zeta. split; [exact A3|]. split; [exact A2|].
  destruct (B2 (put_all (fun _ => None) ws3)) as (_ & _ & O). split; [|split].
  - rewrite O; [exact P|..]; try discriminate. intros phase c Hp Hc.
    destruct Hp as [-> | ->]; (destruct c as [|[|c]]; [split; vm_compute; discriminate|split; vm_compute; discriminate|lia]).
  - exact P.
  - intros c Hc. destruct c as [|[|c]]; [vm_compute; discriminate|vm_compute; discriminate|lia].
Qed.
Print Assumptions C129_stale_refuted.
Example C129_nonvacuous : tag 12 3 = "03"%string /\ tag 10 3 = "3"%string /\ tag 101 7 = "007"%string
  /\ history (fun k c => [[Fin (INR k)]]) (fun k c => [[NInf]; [PInf]]) 1 1 0 = [[Fin 1]; [NInf]; [PInf]].
Proof. repeat split. Qed.
