(** C118-C120: the scripts diag_mass_matrix, ppd_plot and flowMC_info. *)
From Coq Require Import String List Arith Bool ZArith Reals Lra Lia Permutation Sorting.Sorted.
From Coquelicot Require Import Coquelicot.
From Verif Require Import Model_X Spec_X Model_Guru Model_Mass Model_PPD Spec_PPD Props_PPD Model_FlowMC Spec_FlowMC Model_Settings
  Spec_Settings Props_Settings Model_Scripts Spec_Invariance Spec_Scripts Proofs_Scripts.
Import ListNotations.
Open Scope R_scope.

Lemma loadtxt_table n rows : (2 <= n)%nat -> (2 <= length rows)%nat -> table n rows ->
  loadtxt_atleast_2d rows = Some rows.
Proof.
  intros Hn Hr T. destruct rows as [|r rest]; [cbn in Hr; lia|]. cbn [loadtxt_atleast_2d].
  inversion T as [|? ? Hrn Hrest]; subst. replace (forallb _ rest) with true.
  - destruct (Nat.eqb_spec (length r) 1); [lia|reflexivity].
  - symmetry. apply forallb_forall. intros r' Hr'. rewrite Forall_forall in Hrest. apply Nat.eqb_eq. now apply Hrest.
Qed.

(** C118: for a table of samples with at least two rows and two columns, and a positive eps, the script prints one
    number for each column, in order: the reciprocal of the sample variance plus eps, which is finite and positive *)
Theorem C118_reciprocal_variances : forall n rows eps,
  (2 <= n)%nat -> (2 <= length rows)%nat -> table n rows -> 0 < eps ->
  exists values, diag_mass_matrix rows eps = Some values /\ length values = n
    /\ forall j, (j < n)%nat -> nth_error values j = Some (Fin (/ (sample_variance (col j rows) + eps)))
       /\ 0 < / (sample_variance (col j rows) + eps).
Proof.
  intros n rows eps Hn Hr T He. unfold diag_mass_matrix. rewrite (loadtxt_table n rows Hn Hr T).
  destruct (Nat.ltb_spec (length rows) 2); [lia|]. eexists. split; [reflexivity|].
  assert (Hh : length (hd [] rows) = n).
  { destruct rows as [|r rest]; [cbn in Hr; lia|]. now inversion T. }
  split; [now rewrite !map_length, seq_length|]. intros j Hj.
  assert (Lc : (2 <= length (col j rows))%nat) by (unfold col; now rewrite map_length).
  pose proof (sample_variance_nonneg _ Lc) as Hv.
  split; [|apply Rinv_0_lt_compat; lra]. rewrite Hh, map_map, nth_error_map.
  rewrite (nth_error_nth' _ 0%nat) by now rewrite seq_length. rewrite seq_nth by exact Hj. cbn [option_map].
  change (column rows (0 + j)) with (col j rows). rewrite (std_square _ Lc). unfold xdiv.
  destruct (Req_EM_T (sample_variance (col j rows) + eps) 0); [lra|]. unfold Rdiv. now rewrite Rmult_1_l.
Qed.
Print Assumptions C118_reciprocal_variances.

(** put as the mass matrix into well-formed settings, the numbers are accepted by the driver and mean that diagonal
    matrix (C117) *)
Theorem C118_accepted : forall eigvalsh n rows eps values cfg,
  (2 <= n)%nat -> (2 <= length rows)%nat -> table n rows -> 0 < eps -> well_formed cfg ->
  diag_mass_matrix rows eps = Some values ->
  exists A, accept eigvalsh n (update cfg "mass_matrix" (JList (map JFloat values))) = Some (Matrix A)
    /\ forall i j, (i < n)%nat -> (j < n)%nat ->
         A i j = Fin (diagonal (fun i => / (sample_variance (col i rows) + eps)) i j).
Proof.
  intros eig n rows eps values cfg Hn Hr T He W Hv.
  destruct (C118_reciprocal_variances n rows eps Hn Hr T He) as (vs & E & L & N). rewrite Hv in E. injection E as <-.
  assert (V : values = map (fun i => Fin (/ (sample_variance (col i rows) + eps))) (seq 0 n)).
  { apply nth_error_ext. intros j. destruct (Nat.lt_ge_cases j n) as [Hj|Hj].
    - rewrite (proj1 (N j Hj)), nth_error_map, (nth_error_nth' _ 0%nat) by now rewrite seq_length. now rewrite seq_nth.
    - rewrite (proj2 (nth_error_None values j)) by lia. symmetry. apply nth_error_None. rewrite map_length, seq_length. lia. }
  apply (C117_diagonal_accepted eig n (update cfg "mass_matrix" (JList (map JFloat values)))
           (fun i => / (sample_variance (col i rows) + eps))).
  - destruct W as (W1 & W2 & W3 & W4 & W5 & W6 & W7 & W8 & W9).
    assert (Ne : forall k, k <> "mass_matrix"%string -> update cfg "mass_matrix" (JList (map JFloat values)) k = cfg k).
    { intros k Hk. unfold update. now destruct (String.eqb_spec k "mass_matrix"). }
    split; [|split].
    + intros k Hk. rewrite Ne; [now apply W1|]. intros ->. cbn in Hk. intuition discriminate.
    + intros k v Hk. rewrite Ne; [now apply W2|]. intros ->. cbn in Hk. intuition discriminate.
    + repeat split; rewrite Ne by discriminate; assumption.
  - intros i Hi. now apply N.
  - right. right. exists (map JFloat values). split; [reflexivity|]. rewrite V. clear.
    induction (seq 0 n) as [|a t IH]; [reflexivity|]. cbn [map numbers number]. now rewrite IH.
Qed.
Print Assumptions C118_accepted.

(** what the diagonal does: with mass 1 / s_i^2, the sampler moves on the target exactly as the sampler with unit mass
    moves on the target in the coordinates x_i / s_i, for the same draws; its Cholesky factor and inverse are diagonal *)
Theorem C118_standardised : forall n s, (forall i, 0 < s i) ->
  let M := diagonal (fun i => / (s i * s i)) in
  let L := diagonal (fun i => / s i) in
  let Minv := diagonal (fun i => s i * s i) in
  cholesky n M L /\ right_inverse n M Minv
  /\ forall gradient step_size n_leapfrog logpdf normals uniform keys x log_prob,
       sampler n Minv L gradient step_size n_leapfrog logpdf normals uniform keys x log_prob
       = let result := sampler n identity identity
                         (fun y i => s i * gradient (fun j => s j * y j) i) step_size n_leapfrog
                         (fun y => logpdf (fun j => s j * y j)) normals uniform keys (fun i => x i / s i) log_prob in
         (fun i => s i * fst result i, snd result).
Proof.
  intros n s Hs M L Minv. split; [|split].
  - unfold M, L, diagonal. split; [|split].
    + intros i j Hij. destruct (Nat.eqb_spec i j); [lia|reflexivity].
    + intros i _. rewrite Nat.eqb_refl. apply Rinv_0_lt_compat, Hs.
    + intros i j Hi Hj. rewrite (total_single n _ i Hi).
      * rewrite Nat.eqb_refl. pose proof (Hs i). rewrite (Nat.eqb_sym j i). destruct (Nat.eqb_spec i j) as [->|]; [field; lra|ring].
      * intros k Hk Hn. destruct (Nat.eqb_spec i k); [congruence|ring].
  - unfold M, Minv, diagonal. intros i j Hi Hj. rewrite (total_single n _ i Hi).
    + rewrite Nat.eqb_refl. pose proof (Hs i). destruct (Nat.eqb_spec i j) as [<-|]; [field; lra|ring].
    + intros k Hk Hn. destruct (Nat.eqb_spec i k); [congruence|ring].
  - intros g eps nl lp z u keys x l. pose proof (hmc_rescaled n s g eps nl Hs lp z u keys (fun i => x i / s i) l) as H.
    assert (E : (fun i : nat => s i * (x i / s i)) = x).
    { apply FunctionalExtensionality.functional_extensionality. intros i. pose proof (Hs i). field. lra. }
    cbv zeta beta in H. rewrite E in H. unfold Minv, L. rewrite H. cbv zeta.
    destruct (sampler n identity identity _ eps nl _ z u keys _ l) as [y l']. reflexivity.
Qed.
Print Assumptions C118_standardised.

(** the claim for one parameter is false: a file with a single column is taken for a single row, and the script stops
    with "at least 2 samples are required", however many samples there are *)
Theorem C118_one_parameter_refuted : forall samples eps, diag_mass_matrix (map (fun x => [x]) samples) eps = None.
Proof.
  intros samples eps. unfold diag_mass_matrix, loadtxt_atleast_2d. destruct samples as [|x t]; [reflexivity|].
  cbn [map]. destruct (forallb _ _); [|reflexivity]. reflexivity.
Qed.
Print Assumptions C118_one_parameter_refuted.

Example C118_nonvacuous :
  diag_mass_matrix [[1; 10]; [3; 10]; [5; 10]] 1 = Some [Fin (/ 5); Fin 1].
Proof.
  destruct (C118_reciprocal_variances 2 [[1; 10]; [3; 10]; [5; 10]] 1) as (v & E & L & N); try (cbn; lia); try lra.
  { repeat constructor. }
  rewrite E. f_equal. destruct v as [|a [|b [|c v]]]; try discriminate.
  destruct (N 0%nat ltac:(lia)) as [N0 _]. destruct (N 1%nat ltac:(lia)) as [N1 _]. cbn in N0, N1.
  injection N0 as ->. injection N1 as ->. unfold sample_variance, average, Rsqr. cbn. repeat f_equal; field; lra.
Qed.

(** ** C119 *)
Lemma lookup_nth {A} (l : list (string * A)) : forall k h t, nth_error l k = Some (h, t) ->
  (forall i h' t', (i < k)%nat -> nth_error l i = Some (h', t') -> h' <> h) -> lookup h l = Some t.
Proof.
  induction l as [|(a, b) l IH]; intros k h t Hk Hd; [destruct k; discriminate|]. cbn [lookup]. destruct k as [|k].
  - injection Hk as -> ->. now rewrite String.eqb_refl.
  - destruct (String.eqb_spec h a) as [->|_].
    + exfalso. now apply (Hd 0%nat a b ltac:(lia) eq_refl).
    + apply (IH k); [exact Hk|]. intros i h' t' Hi Hn. apply (Hd (S i) h' t'); [lia|exact Hn].
Qed.
Lemma map_opt_ok {A B} (f : A -> option B) l : (forall k a, nth_error l k = Some a -> exists b, f a = Some b) ->
  exists r, map_opt f l = Some r /\ length r = length l /\ forall k a, nth_error l k = Some a -> nth_error r k = f a.
Proof.
  induction l as [|a t IH]; intros H; cbn [map_opt].
  - exists []. repeat split. intros [|k] a; discriminate.
  - destruct (H 0%nat a eq_refl) as [b Hb]. destruct IH as (r & E & L & N); [intros k; exact (H (S k))|].
    rewrite Hb, E. exists (b :: r). repeat split; [cbn; congruence|]. intros [|k] a' Hk; [|exact (N k a' Hk)].
    injection Hk as <-. now rewrite Hb.
Qed.
Lemma map_seq_nth {A B} (f : nat -> B) (g : A -> B) l :
  (forall s a, nth_error l s = Some a -> f s = g a) -> map f (seq 0 (length l)) = map g l.
Proof.
  intros H. apply nth_error_ext. intros k. rewrite !nth_error_map. destruct (nth_error l k) as [a|] eqn:E.
  - assert (k < length l)%nat by (apply nth_error_Some; congruence).
    rewrite (nth_error_nth' _ 0%nat) by now rewrite seq_length. rewrite seq_nth by assumption. cbn. f_equal. now apply H.
  - apply nth_error_None in E. rewrite (proj2 (nth_error_None _ _)); [reflexivity|]. now rewrite seq_length.
Qed.

(** the values of the marginal density of axis k at its j-th grid point, one for each posterior sample *)
Definition marginal_values density (samples : list (list R)) domains constants mapping k d j : list R :=
  map (fun row => Spec_PPD.integral (firstn k domains ++ skipn (S k) domains)%list
        (fun p => density_of density constants mapping row (firstn k p ++ grid_point d j :: skipn k p)%list)) samples.

(** C119: from the file that the analysis saved, the script draws for every header, over the grid of its axis, the mean
    of the samples' marginal densities as the PPD curve, their median, and bands between their 5% and 95% and their 25%
    and 75% quantiles *)
Theorem C119_curves : forall density samples domains headers constants mapping file,
  List.Forall (fun d : domain => (1 <= snd d)%nat) domains -> samples <> [] ->
  compute_and_save_ppd density samples domains headers constants mapping = Some file ->
  exists panels, file_panels file = Some panels /\ map p_head panels = headers
    /\ forall k d panel, nth_error domains k = Some d -> nth_error panels k = Some panel ->
         p_x panel = map (grid_point d) (seq 0 (snd d))
         /\ forall j, (j < snd d)%nat ->
              let values := marginal_values density samples domains constants mapping k d j in
              nth_error (p_ppd panel) j = Some (Spec_PPD.mean values)
              /\ exists q05 q25 q50 q75 q95,
                   nth_error (p_median panel) j = Some q50 /\ is_quantile (50/100) values q50
                   /\ nth_error (fst (p_ninety panel)) j = Some q05 /\ is_quantile (5/100) values q05
                   /\ nth_error (snd (p_ninety panel)) j = Some q95 /\ is_quantile (95/100) values q95
                   /\ nth_error (fst (p_fifty panel)) j = Some q25 /\ is_quantile (25/100) values q25
                   /\ nth_error (snd (p_fifty panel)) j = Some q75 /\ is_quantile (75/100) values q75.
Proof.
  intros density samples domains headers constants mapping file Hd Hs Hf.
  assert (Hok : length headers = length domains /\ NoDup headers).
  { destruct (Nat.eq_dec (length headers) (length domains)) as [E|E].
    - split; [exact E|]. destruct (ListDec.NoDup_dec string_dec headers) as [N|N]; [exact N|].
      rewrite (proj2 (C97_refused_iff density samples domains headers constants mapping Hd) (or_intror N)) in Hf. discriminate.
    - rewrite (proj2 (C97_refused_iff density samples domains headers constants mapping Hd) (or_introl E)) in Hf. discriminate. }
  destruct Hok as (Hl & Hn).
  destruct (C97_file_contents density samples domains headers constants mapping Hd Hl Hn Hs) as (file' & Ef & Fd & Fh & Fs & _ & Fm).
  rewrite Hf in Ef. injection Ef as <-.
  pose proof (C98_marginals_agree density samples domains headers constants mapping file Hd Hs Hf) as Ag.
  unfold file_panels. rewrite Fh.
  assert (Lk : forall k h, nth_error headers k = Some h -> exists t d, nth_error domains k = Some d /\ nth_error (f_marginals file) k = Some (h, t)
            /\ lookup h (f_marginals file) = Some t).
  { intros k h Hk. assert (K : (k < length domains)%nat) by (rewrite <- Hl; apply nth_error_Some; congruence).
    destruct (nth_error domains k) as [d|] eqn:Ed; [|apply nth_error_None in Ed; lia].
    destruct (Fm k d h Ed Hk) as (t & Et & _). exists t, d. repeat split; auto.
    apply (lookup_nth _ k h t Et). intros i h' t' Hi Hi' ->.
    assert (Ii : exists hi, nth_error headers i = Some hi).
    { destruct (nth_error headers i) eqn:E; [eauto|]. apply nth_error_None in E. lia. }
    destruct Ii as [hi Ehi]. destruct (nth_error domains i) as [di|] eqn:Edi; [|apply nth_error_None in Edi; lia].
    destruct (Fm i di hi Edi Ehi) as (ti & Eti & _). rewrite Hi' in Eti. injection Eti as -> _.
    assert (i = k); [|lia]. apply (proj1 (NoDup_nth_error headers) Hn); [lia|]. congruence. }
  destruct (map_opt_ok (fun head => lookup head (f_marginals file)) headers) as (ms & Em & Lm & Nm).
  { intros k h Hk. destruct (Lk k h Hk) as (t & _ & _ & _ & E). eauto. }
  rewrite Em.
  assert (Lg : length (get_all_marginals (f_ppd file) (f_domains file)) = length domains).
  { unfold get_all_marginals. rewrite map_length, seq_length, Fs, map_length. reflexivity. }
  match goal with |- context [map_opt ?F (seq 0 (length headers))] => set (F0 := F) end.
  assert (HF : forall k, (k < length headers)%nat -> exists h d t m, nth_error headers k = Some h /\ nth_error domains k = Some d
     /\ nth_error (f_marginals file) k = Some (h, t) /\ nth_error (get_all_marginals (f_ppd file) (f_domains file)) k = Some m
     /\ F0 k = Some (mkpanel h (d_grid d) (get_quantiles t (1/2)) (map (fun j => t_at m [j]) (seq 0 (nth 0 (t_shape m) 0%nat)))
                (get_quantiles t (5/100), get_quantiles t (95/100)) (get_quantiles t (25/100), get_quantiles t (75/100)))).
  { intros k Hk. destruct (nth_error headers k) as [h|] eqn:Eh; [|apply nth_error_None in Eh; lia].
    destruct (Lk k h Eh) as (t & d & Ed & Et & El).
    destruct (nth_error (get_all_marginals (f_ppd file) (f_domains file)) k) as [m|] eqn:Eg; [|apply nth_error_None in Eg; lia].
    exists h, d, t, m. repeat split; auto. unfold F0. rewrite Eh, (Nm k h Eh), El, Eg, Fd, Ed. reflexivity. }
  destruct (map_opt_ok F0 (seq 0 (length headers))) as (ps & Ep & Lp & Np).
  { intros k i Hk. assert (Hkl : (k < length headers)%nat).
    { rewrite <- (seq_length (length headers) 0). apply nth_error_Some. congruence. }
    rewrite (nth_error_nth' _ 0%nat) in Hk by now rewrite seq_length. rewrite seq_nth in Hk by exact Hkl. injection Hk as <-.
    destruct (HF (0 + k)%nat Hkl) as (h & d & t & m & _ & _ & _ & _ & E). eauto. }
  rewrite seq_length in Lp.
  assert (Np' : forall k, (k < length headers)%nat -> nth_error ps k = F0 k).
  { intros k Hk. apply Np. rewrite (nth_error_nth' _ 0%nat) by now rewrite seq_length. now rewrite seq_nth. }
  exists ps. split; [exact Ep|]. split.
  { apply nth_error_ext. intros k. rewrite nth_error_map. destruct (Nat.lt_ge_cases k (length headers)) as [K|K].
    - rewrite (Np' k K). destruct (HF k K) as (h & d & t & m & Eh & _ & _ & _ & E). rewrite E, Eh. reflexivity.
    - rewrite (proj2 (nth_error_None ps k)) by lia. symmetry. apply nth_error_None. lia. }
  intros k d panel Ed Epk. assert (K : (k < length headers)%nat) by (rewrite <- Lp; apply nth_error_Some; congruence).
  destruct (HF k K) as (h & d' & t & m & Eh & Ed' & Et & Eg & E). rewrite Ed in Ed'. injection Ed' as <-.
  rewrite (Np' k K), E in Epk. injection Epk as <-. cbn [p_x p_ppd p_median p_ninety p_fifty fst snd].
  split.
  { destruct d as [[a b] n]. reflexivity. }
  intros j Hj. set (values := marginal_values density samples domains constants mapping k d j).
  destruct (Fm k d h Ed Eh) as (t' & Et' & Sh & Vt). rewrite Et in Et'. injection Et' as <-.
  assert (Vv : map (fun s => t_at t [j; s]) (seq 0 (length samples)) = values).
  { unfold values, marginal_values. apply map_seq_nth. intros s row Hrow. now apply Vt. }
  split.
  { destruct (Ag k d h t j Ed Et Hj) as (m' & Em' & Sm & Vm). rewrite Eg in Em'. injection Em' as <-.
    rewrite nth_error_map, Sm. cbn [nth]. rewrite (nth_error_nth' _ 0%nat) by now rewrite seq_length. rewrite seq_nth by exact Hj.
    cbn [option_map]. f_equal. rewrite <- Vv. exact Vm. }
  assert (Vne : values <> []).
  { unfold values, marginal_values. destruct samples; [congruence|discriminate]. }
  assert (Q : forall q, 0 <= q <= 1 -> nth_error (get_quantiles t q) j = Some (quantile values q) /\ is_quantile q values (quantile values q)).
  { intros q Hq. split; [|now apply quantile_spec]. unfold get_quantiles. rewrite Sh. cbn [nth].
    rewrite nth_error_map, (nth_error_nth' _ 0%nat) by now rewrite seq_length. rewrite seq_nth by exact Hj. cbn [option_map Nat.add].
    now rewrite Vv. }
  exists (quantile values (5/100)), (quantile values (25/100)), (quantile values (50/100)), (quantile values (75/100)), (quantile values (95/100)).
  replace (1/2) with (50/100) by lra.
  destruct (Q (5/100)), (Q (25/100)), (Q (50/100)), (Q (75/100)), (Q (95/100)); try lra. repeat split; auto.
Qed.
Print Assumptions C119_curves.

(** quantiles are determined by the values, whatever their order, and increase with q: the median lies in the 50% band,
    which lies in the 90% band, which lies between the smallest and the largest value *)
Theorem C119_nested : forall values,
  (forall q v w values', Permutation values values' -> is_quantile q values v -> is_quantile q values' w -> v = w)
  /\ (forall q q' v w, q <= q' -> is_quantile q values v -> is_quantile q' values w -> v <= w)
  /\ (forall q v, is_quantile q values v -> exists a b, In a values /\ In b values /\ a <= v <= b).
Proof.
  intros values. split; [|split].
  - intros q v w values' P Hv Hw. apply (quantile_unique q values v w Hv).
    destruct Hw as (s & k & g & P' & S & K & G & E & B & V). rewrite <- (Permutation_length P) in *.
    exists s, k, g. repeat split; auto; try lra. eapply Permutation_trans; eauto.
  - intros q q' v w. apply quantile_mono.
  - intros q v Hv. destruct (quantile_within q values v Hv) as (a & b & Ha & Hb & Hab & _). eauto.
Qed.
Print Assumptions C119_nested.

(** coverage: more than q (n - 1) of the n values are at most the q-quantile and more than (1 - q) (n - 1) at least;
    hence the band between two quantiles holds more than (q' - q) (n - 1) - 1 values *)
Theorem C119_coverage : forall values q q' v w, q <= q' -> is_quantile q values v -> is_quantile q' values w ->
  q * (INR (length values) - 1) < INR (at_most v values)
  /\ (1 - q) * (INR (length values) - 1) < INR (at_least v values)
  /\ (q' - q) * (INR (length values) - 1) - 1 < INR (between v w values).
Proof.
  intros values q q' v w Hq Hv Hw. destruct (quantile_counts q values v Hv) as [A B].
  destruct (quantile_counts q' values w Hw) as [C D]. split; [exact A|]. split; [exact B|].
  pose proof (between_count v w values) as N. apply le_INR in N. rewrite !plus_INR in N. lra.
Qed.
Print Assumptions C119_coverage.

(** several files with the same headers: every figure is named after a header and holds the panels of that header, one
    for each file, in the order of the files *)
Theorem C119_figures : forall files headers panels,
  files <> [] -> (forall f, In f files -> f_headers f = headers) ->
  map_opt file_panels files = Some panels -> (forall ps, In ps panels -> map p_head ps = headers) ->
  exists figs, figures files = Some figs /\ map fst figs = headers
    /\ forall name ps, In (name, ps) figs -> length ps = length files /\ forall p, In p ps -> p_head p = name.
Proof.
  intros files headers panels Hne Hh Hp Hph. destruct files as [|first rest]; [congruence|]. unfold figures. rewrite Hp.
  assert (Lps : forall ps, In ps panels -> length ps = length headers).
  { intros ps Hps. rewrite <- (Hph ps Hps). now rewrite map_length. }
  rewrite (Hh first (or_introl eq_refl)).
  replace (forallb _ panels) with true.
  2:{ symmetry. apply forallb_forall. intros ps Hps. rewrite (Lps ps Hps). apply Nat.leb_refl. }
  assert (Hl : f_headers (last (first :: rest) first) = headers).
  { apply Hh. clear. generalize first at 1 3. revert first. induction rest as [|f t IH]; intros a b; [left; reflexivity|].
    right. change (last (b :: f :: t) a) with (last (f :: t) a). apply IH. }
  rewrite Hl.
  assert (Lpan : length panels = length (first :: rest)).
  { clear -Hp. revert panels Hp. generalize (first :: rest). intros l. induction l as [|f t IH]; intros panels Hp; cbn [map_opt] in Hp.
    - injection Hp as <-. reflexivity.
    - destruct (file_panels f); [|discriminate]. destruct (map_opt file_panels t); [|discriminate]. injection Hp as <-. cbn. f_equal. now apply IH. }
  match goal with |- context [map_opt ?F (seq 0 (length headers))] => set (F0 := F) end.
  assert (HF : forall k h, nth_error headers k = Some h ->
     F0 k = Some (h, flat_map (fun ps => match nth_error ps k with Some p => [p] | None => [] end) panels)).
  { intros k h Hk. unfold F0. now rewrite Hk. }
  destruct (map_opt_ok F0 (seq 0 (length headers))) as (figs & Ef & Lf & Nf).
  { intros k i Hk. assert (Hkl : (k < length headers)%nat).
    { rewrite <- (seq_length (length headers) 0). apply nth_error_Some. congruence. }
    rewrite (nth_error_nth' _ 0%nat) in Hk by now rewrite seq_length. rewrite seq_nth in Hk by exact Hkl. injection Hk as <-.
    destruct (nth_error headers k) as [h|] eqn:Eh; [|apply nth_error_None in Eh; lia]. cbn [Nat.add]. rewrite (HF k h Eh). eauto. }
  rewrite seq_length in Lf.
  assert (Nf' : forall k h, nth_error headers k = Some h ->
     nth_error figs k = Some (h, flat_map (fun ps => match nth_error ps k with Some p => [p] | None => [] end) panels)).
  { intros k h Hk. assert (Hkl : (k < length headers)%nat) by (apply nth_error_Some; congruence). rewrite <- (HF k h Hk). apply Nf.
    rewrite (nth_error_nth' _ 0%nat) by now rewrite seq_length. now rewrite seq_nth. }
  exists figs. split; [exact Ef|]. split.
  { apply nth_error_ext. intros k. rewrite nth_error_map. destruct (nth_error headers k) as [h|] eqn:Eh.
    - rewrite (Nf' k h Eh). reflexivity.
    - apply nth_error_None in Eh. rewrite (proj2 (nth_error_None figs k)) by lia. reflexivity. }
  intros name ps Hin. apply In_nth_error in Hin as [k Hk].
  assert (Hkl : (k < length headers)%nat) by (rewrite <- Lf; apply nth_error_Some; congruence).
  destruct (nth_error headers k) as [h|] eqn:Eh; [|apply nth_error_None in Eh; lia].
  rewrite (Nf' k h Eh) in Hk. injection Hk as <- <-. split.
  - rewrite <- Lpan. clear -Lps Hkl. induction panels as [|q t IH]; [reflexivity|]. cbn [flat_map length].
    rewrite app_length, IH by (intros; apply Lps; now right).
    destruct (nth_error q k) eqn:E; [reflexivity|]. apply nth_error_None in E. rewrite (Lps q (or_introl eq_refl)) in E. lia.
  - intros p Hin. apply in_flat_map in Hin as (q & Hq & Hin). destruct (nth_error q k) as [p'|] eqn:E; [|destruct Hin].
    destruct Hin as [->|[]]. pose proof (map_nth_error p_head _ _ E) as M. rewrite (Hph q Hq), Eh in M. congruence.
Qed.
Print Assumptions C119_figures.

Definition one_point_file (h1 h2 : string) : ppd_file :=
  mkppd [(0, 1, 1%nat); (0, 1, 1%nat)] [h1; h2] (mktensor [1%nat; 1%nat] (fun _ => 1))
    [(h1, mktensor [1%nat; 1%nat] (fun _ => 1)); (h2, mktensor [1%nat; 1%nat] (fun _ => 1))].
(** without the condition on the headers this is false: the curves of two files whose headers come in a different order
    are drawn into the same figure *)
Theorem C119_mixed_headers_refuted : ~ (forall files figs, figures files = Some figs ->
  forall name ps, In (name, ps) figs -> forall p, In p ps -> p_head p = name).
Proof.
  intros H.
  destruct (figures [one_point_file "m1" "z"; one_point_file "z" "m1"]) as [figs|] eqn:E; [|discriminate].
  pose proof (H _ figs E) as N. cbn in E. injection E as <-.
  specialize (N _ _ (or_introl eq_refl) _ (or_introl eq_refl)). discriminate.
Qed.
Print Assumptions C119_mixed_headers_refuted.

(** quantiles of small lists *)
Example C119_nonvacuous :
  is_quantile (50/100) [3; 1; 2] 2 /\ is_quantile (25/100) [3; 1; 2] (3/2) /\ is_quantile (95/100) [3; 1] (29/10)
  /\ between (3/2) 2 [3; 1; 2] = 1%nat.
Proof.
  assert (P : Permutation [3; 1; 2] [1; 2; 3]) by (apply Permutation_sym, (Permutation_cons_app [3] [] 1) || (eapply Permutation_trans; [apply perm_swap|]; apply perm_skip; apply perm_swap)).
  assert (S : StronglySorted Rle [1; 2; 3]) by (repeat constructor; lra).
  repeat split.
  - exists [1; 2; 3], 1%nat, 0. cbn. repeat split; auto; try lra; try lia.
  - exists [1; 2; 3], 0%nat, (1/2). cbn. repeat split; auto; try lra; try lia.
  - exists [1; 3], 0%nat, (95/100). cbn. repeat split; auto; try lra; try lia; [apply perm_swap|repeat constructor; lra].
  - unfold between. cbn. repeat (destruct (Rle_dec _ _); cbn; try lra; try reflexivity).
Qed.

(** ** C120 *)
Open Scope Z_scope.
(** the meaning of the table: every loop adds k samples to each chain, and training sees the last w of each chain *)
Definition pool (k w L : Z) : Z := Z.min (k * L) w.

(** C120: for settings with a positive number of chains, samples kept per loop, window and limit, row L of the table
    shows the samples collected so far over all chains, those within the window, and the training set; "saturated" marks
    exactly the loop in which the window is first full *)
Theorem C120_table : forall c max_loops row,
  0 < i_chains c -> 0 < i_local_thin c -> 0 < i_global_thin c -> 0 < i_window c -> 0 < i_max c ->
  let k := i_local c / i_local_thin c + i_global c / i_global_thin c in 0 < k ->
  In row (loop_table c max_loops) ->
  1 <= r_loop row <= i_train_loops c
  /\ r_collected row = i_chains c * (k * r_loop row)
  /\ r_candidates row = i_chains c * pool k (i_window c) (r_loop row)
  /\ r_train row = Z.min (i_max c) (r_candidates row)
  /\ (r_saturated row = true <-> pool k (i_window c) (r_loop row) = i_window c /\ pool k (i_window c) (r_loop row - 1) < i_window c).
Proof.
  intros c ml row Hc Hlt Hgt Hw Hm k Hk Hin. unfold loop_table in Hin. apply in_map_iff in Hin as (j & <- & Hj).
  apply in_seq in Hj. assert (Hk' : kept_per_chain c = k) by (unfold kept_per_chain; rewrite !Z.max_l by lia; reflexivity).
  set (L := Z.of_nat (S j)). assert (HL : 1 <= L) by (unfold L; lia).
  assert (Lim : L <= i_train_loops c).
  { assert (L <= table_limit c ml) by (unfold L; lia). unfold table_limit in H.
    destruct (ml <? 0); [destruct (_ =? 0)|]; lia. }
  unfold loop_row. cbn [r_loop r_collected r_candidates r_train r_saturated]. fold L.
  unfold kept_total_per_loop, history_capacity. rewrite Hk'.
  destruct (Z.ltb_spec 0 (i_window c * i_chains c)) as [_|N]; [|nia]. destruct (Z.ltb_spec 0 (i_max c)); [|lia].
  split; [lia|]. split; [ring|]. split.
  { unfold pool. rewrite <- Z.mul_min_distr_nonneg_l by lia. f_equal; ring. }
  split; [apply Z.min_comm|].
  unfold loops_to_fill. rewrite Hk'. destruct (Z.ltb_spec 0 k); [|lia]. destruct (Z.ltb_spec 0 (i_window c)); [|lia]. cbn [andb].
  unfold ceil_div, pool. rewrite Z.eqb_eq.
  pose proof (Z.div_mod (- i_window c) k ltac:(lia)). pose proof (Z.mod_pos_bound (- i_window c) k Hk).
  set (D := - i_window c / k) in *. set (Rm := - i_window c mod k) in *.
  split.
  - intros ->. split; nia.
  - intros [A B]. assert (k * L >= i_window c) by lia. assert (k * (L - 1) < i_window c) by lia. nia.
Qed.
Print Assumptions C120_table.

(** samples have been forgotten after loop L exactly if more than w were collected per chain; "forgetting" is marked only
    then, and always then if the samples of a loop divide the window *)
Theorem C120_forgetting : forall c max_loops row,
  0 < i_local_thin c -> 0 < i_global_thin c -> 0 < i_window c ->
  let k := i_local c / i_local_thin c + i_global c / i_global_thin c in 0 < k ->
  In row (loop_table c max_loops) ->
  (r_forgetting row = true -> i_window c < k * r_loop row)
  /\ ((k | i_window c) -> i_window c < k * r_loop row -> r_forgetting row = true)
  /\ (i_window c < k * (r_loop row - 1) -> r_forgetting row = true).
Proof.
  intros c ml row Hlt Hgt Hw k Hk Hin. unfold loop_table in Hin. apply in_map_iff in Hin as (j & <- & Hj).
  assert (Hk' : kept_per_chain c = k) by (unfold kept_per_chain; rewrite !Z.max_l by lia; reflexivity).
  unfold loop_row. cbn [r_loop r_forgetting]. set (L := Z.of_nat (S j)).
  unfold first_forget_loop, loops_to_fill. rewrite Hk'.
  destruct (Z.ltb_spec 0 k); [|lia]. destruct (Z.ltb_spec 0 (i_window c)); [|lia]. cbn [andb]. unfold ceil_div.
  pose proof (Z.div_mod (- i_window c) k ltac:(lia)) as D1. pose proof (Z.mod_pos_bound (- i_window c) k Hk) as D2.
  set (D := - i_window c / k) in *. set (Rm := - i_window c mod k) in *.
  assert (0 < - D) by nia. destruct (Z.ltb_spec 0 (- D)); [|lia].
  destruct (Z.ltb_spec 0 (- D + 1)); [|lia]. rewrite andb_true_r, Z.leb_le. split; [|split].
  - intros. nia.
  - intros [q Hq] Hlt'. assert (Rm = 0). { unfold Rm. rewrite Hq. replace (- (q * k)) with ((- q) * k) by ring. apply Z.mod_mul. lia. }
    nia.
  - intros. nia.
Qed.
Print Assumptions C120_forgetting.

(** the claim that every loop with forgotten samples is marked is false: with 320 samples per loop and a window of 500
    (the template's settings), after the second loop 140 samples of every chain are out of the window, and the row is not
    marked *)
Definition template_info : info_config := mkinfo 10 300 1 20 1 500 100000 15.
Theorem C120_forgetting_refuted : exists row, In row (loop_table template_info (-1)) /\ r_loop row = 2
  /\ 500 < (300 / 1 + 20 / 1) * r_loop row /\ r_forgetting row = false.
Proof. eexists. split; [right; left; reflexivity|]. cbn. repeat split; lia. Qed.
Print Assumptions C120_forgetting_refuted.

(** the suggestions: taken over into settings that the driver accepts, they give settings that the driver accepts, with
    the same mass matrix; the training set fits into the window and the window holds a whole number of loops *)
Theorem C120_suggestions_accepted : forall eigvalsh n cfg m n_dims c h,
  accept eigvalsh n cfg = Some m -> 0 < i_chains c -> 0 < kept_per_chain c ->
  generate_heuristics n_dims (i_chains c) (kept_total_per_loop c) = Some h ->
  accept eigvalsh n (with_suggestions cfg h) = Some m
  /\ (kept_per_chain c | h_window h) /\ h_max h <= h_window h * i_chains c
  /\ 1024 <= h_batch h <= 10000 /\ h_prod h <= h_train h.
Proof.
  intros eig n cfg m nd c h Ha Hc Hk Hh.
  assert (P : h_window h = h_loops h * kept_per_chain c /\ 0 < h_loops h /\ 0 < h_max h <= h_window h * i_chains c
    /\ 1024 <= h_batch h <= 10000 /\ 0 < h_prod h <= h_train h /\ 0 < h_layers h /\ List.Forall (fun z => 0 < z) (h_hidden h)).
  { unfold generate_heuristics in Hh. destruct (nd =? 0); [discriminate|].
    assert (K : kept_total_per_loop c / Z.max (i_chains c) 1 = kept_per_chain c).
    { rewrite Z.max_l by lia. unfold kept_total_per_loop. apply Z.div_mul. lia. }
    rewrite K in Hh. assert (Kc : 0 < kept_per_chain c * i_chains c) by nia.
    destruct (nd <=? 15); [|destruct (nd <=? 30)];
      (match type of Hh with Some ?v = Some h => assert (Hv : h = v) by congruence; clear Hh; subst h end);
      cbn [h_window h_loops h_max h_capacity h_batch h_hidden h_layers h_train h_prod];
      (split; [reflexivity|]; split; [lia|]; rewrite <- ?Z.mul_assoc; set (e := kept_per_chain c * i_chains c) in *; clearbody e; split; [lia|]; split;
       [match goal with |- context [0 <? ?e1] => destruct (Z.ltb_spec 0 e1); lia end|]; split; [cbn; lia|]; split; [lia|];
       repeat constructor; lia). }
  destruct P as (P1 & P2 & P3 & P4 & P5 & P6 & P7).
  split.
  2:{ split; [exists (h_loops h); exact P1|]. lia. }
  assert (W := C117_accepted_well_formed eig n cfg m Ha).
  assert (Ne : forall k, ~ In k ["history_window"; "n_max_examples"; "batch_size"; "n_training_loops"; "n_production_loops";
     "rq_spline_hidden_units"; "rq_spline_n_layers"]%string -> with_suggestions cfg h k = cfg k).
  { intros k Hin. unfold with_suggestions. cbn [lookup].
    repeat match goal with |- context [String.eqb k ?s] => destruct (String.eqb_spec k s) as [->|_]; [exfalso; apply Hin; cbn; tauto|] end. reflexivity. }
  assert (W' : well_formed (with_suggestions cfg h)).
  { destruct W as (W1 & W2 & W3 & W4 & W5 & W6 & W7 & W8 & W9). split; [|split].
    - intros k Hk'. unfold with_suggestions. destruct (lookup k _); [discriminate|]. now apply W1.
    - intros k v Hk' E. unfold with_suggestions in E. cbn [lookup] in E.
      repeat match type of E with context [String.eqb k ?s] =>
        destruct (String.eqb_spec k s) as [->|_];
        [first [injection E as <-; right; eexists; split; [reflexivity|nia] | cbn in Hk'; intuition discriminate]|] end.
      now apply (W2 k).
    - repeat split; try (rewrite Ne by (cbn; intuition discriminate); assumption).
      intros v E. unfold with_suggestions in E. cbn [lookup String.eqb Ascii.eqb Bool.eqb] in E. injection E as <-.
      eexists. split; [reflexivity|]. apply Forall_forall. intros x Hx. apply in_map_iff in Hx as (z & <- & Hz).
      rewrite Forall_forall in P7. specialize (P7 z Hz). right. exists z. split; [reflexivity|lia]. }
  unfold accept in *. destruct (forallb (check_entry cfg) checked && _ && _) eqn:E; [|discriminate].
  apply checks_iff in E as [_ T].
  rewrite (proj2 (checks_iff (with_suggestions cfg h))).
  - unfold value in *. rewrite Ne by (cbn; intuition discriminate). exact Ha.
  - split; [exact W'|]. intros v. rewrite Ne by (cbn; intuition discriminate). apply T.
Qed.
Print Assumptions C120_suggestions_accepted.

(** the claim that a suggested batch is no larger than the suggested training set is false for short loops *)
Theorem C120_batch_refuted : exists h, generate_heuristics 5 10 100 = Some h /\ h_max h < h_batch h.
Proof. eexists. split; [reflexivity|]. cbn. lia. Qed.
Print Assumptions C120_batch_refuted.

Example C120_nonvacuous :
  loop_table template_info (-1)
  = [mkrow 1 3200 3200 3200 false false; mkrow 2 6400 5000 5000 true false; mkrow 3 9600 5000 5000 false true;
     mkrow 4 12800 5000 5000 false true; mkrow 5 16000 5000 5000 false true]
  /\ generate_heuristics 20 10 3200 = Some (mkheur 1920 6 19200 19200 1200 [128; 128] 6 24 12).
Proof. split; reflexivity. Qed.
