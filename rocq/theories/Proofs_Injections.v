From Coq Require Import String Ascii.
From Coq Require Import Reals List Bool Arith Lra Lia.
From Verif Require Import Model_X Model_Joint Model_Constraints Model_Transform Proofs_Transform Model_Population Proofs_Population Model_Injections Spec_Injections.
Import ListNotations.
Open Scope R_scope.

(** ** Dictionaries *)
Lemma dget_In {A} (d : list (string * A)) k v : dget d k = Some v -> In (k, v) d.
Proof.
  induction d as [|[k' v'] t IH]; [discriminate|]. cbn [dget]. destruct (String.eqb_spec k' k) as [->|].
  - intros [= ->]. now left.
  - intros H. right. auto.
Qed.
Lemma In_dget {A} (d : list (string * A)) k v : NoDup (map fst d) -> In (k, v) d -> dget d k = Some v.
Proof.
  induction d as [|[k' v'] t IH]; [easy|]. cbn [dget map fst]. intros N [E|I].
  - injection E as -> ->. now rewrite String.eqb_refl.
  - inversion N; subst. destruct (String.eqb_spec k' k) as [->|]; [|auto].
    exfalso. apply H1. apply in_map_iff. now exists (k, v).
Qed.
Lemma dget_None {A} (d : list (string * A)) k : dget d k = None <-> ~ In k (map fst d).
Proof.
  induction d as [|[k' v'] t IH]; [cbn; tauto|]. cbn [dget map fst In]. destruct (String.eqb_spec k' k) as [->|N].
  - split; [discriminate|]. intros H. exfalso. auto.
  - rewrite IH. tauto.
Qed.
Lemma dget_dset {A} (d : list (string * A)) k v k' : dget (dset d k v) k' = if String.eqb k k' then Some v else dget d k'.
Proof.
  induction d as [|[k0 v0] t IH].
  - reflexivity.
  - cbn [dset]. destruct (String.eqb_spec k0 k) as [->|N]; cbn [dget].
    + destruct (String.eqb_spec k k'); auto.
    + rewrite IH. destruct (String.eqb_spec k0 k') as [->|]; auto.
      destruct (String.eqb_spec k k') as [->|]; [congruence|auto].
Qed.
Lemma dset_keys {A} (d : list (string * A)) k v k' : In k' (map fst (dset d k v)) <-> k' = k \/ In k' (map fst d).
Proof.
  induction d as [|[k0 v0] t IH]; [cbn; intuition|]. cbn [dset]. destruct (String.eqb_spec k0 k) as [->|N]; cbn [map fst In].
  - intuition.
  - rewrite IH. intuition.
Qed.
Lemma dset_NoDup {A} (d : list (string * A)) k v : NoDup (map fst d) -> NoDup (map fst (dset d k v)).
Proof.
  induction d as [|[k0 v0] t IH]; [intros _; cbn; constructor; [easy|constructor]|]. intros N. inversion N; subst.
  cbn [dset]. destruct (String.eqb_spec k0 k) as [->|Ne]; cbn [map fst]; constructor; auto.
  rewrite dset_keys. intros [E|I]; auto.
Qed.

(** ** Strings *)
Lemma prefix_spec p s : String.prefix p s = true <-> exists b, s = (p ++ b)%string.
Proof.
  revert s; induction p as [|c p IH]; intros s.
  - cbn. split; [intros _; now exists s|auto]. destruct s; auto.
  - destruct s as [|c' s]; cbn.
    + split; [discriminate|]. intros [b E]. discriminate.
    + destruct (ascii_dec c c') as [->|N].
      * rewrite IH. split; intros [b E]; exists b; [now rewrite E|now injection E].
      * split; [discriminate|]. intros [b E]. injection E as E1 E2. congruence.
Qed.
Lemma contains_spec sub s : contains sub s = true <-> substring_of sub s.
Proof.
  induction s as [|c s IH].
  - cbn [contains]. rewrite orb_false_r, prefix_spec. split.
    + intros [b E]. exists EmptyString, b. exact E.
    + intros [a [b E]]. destruct a; [now exists b|discriminate].
  - cbn [contains]. rewrite orb_true_iff, IH, prefix_spec. split.
    + intros [[b E]|[a [b E]]]; [exists EmptyString, b; exact E|]. exists (String c a), b. cbn. now rewrite E.
    + intros [a [b E]]. destruct a as [|c' a]; [left; now exists b|]. right. injection E as -> E. now exists a, b.
Qed.
Lemma lower_app a b : lower (a ++ b) = (lower a ++ lower b)%string.
Proof. induction a as [|c a IH]; cbn; [auto|now rewrite IH]. Qed.
Lemma lower_substring sub s : substring_of sub s -> substring_of (lower sub) (lower s).
Proof. intros [a [b ->]]. exists (lower a), (lower b). now rewrite !lower_app. Qed.

Fixpoint unreplace (s : string) : string :=
  match s with
  | EmptyString => EmptyString
  | String c t =>
      match t with
      | String f (String a (String r u)) =>
          if Ascii.eqb c "i" && Ascii.eqb f "f" && Ascii.eqb a "a" && Ascii.eqb r "r" then ("far" ++ unreplace u)%string
          else String c (unreplace t)
      | _ => String c (unreplace t)
      end
  end.
Lemma string_wf_ind (P : string -> Prop) : (forall s, (forall s', String.length s' < String.length s -> P s')%nat -> P s) -> forall s, P s.
Proof.
  intros H s. remember (String.length s) as n eqn:E. revert s E.
  induction n as [n IH] using lt_wf_ind. intros s ->. apply H. intros s' L. eapply IH; eauto.
Qed.
Definition starts_far (s : string) : bool :=
  match s with String c (String a (String r _)) => Ascii.eqb c "f" && Ascii.eqb a "a" && Ascii.eqb r "r" | _ => false end.
Lemma replace_far_hit u : replace_far (String "f" (String "a" (String "r" u))) = ("ifar" ++ replace_far u)%string.
Proof. reflexivity. Qed.
Lemma replace_far_miss c t : starts_far (String c t) = false -> replace_far (String c t) = String c (replace_far t).
Proof. destruct t as [|a [|r u]]; try reflexivity. cbn [starts_far]. intros H. cbn [replace_far]. now rewrite H. Qed.
Lemma starts_far_true s : starts_far s = true -> exists u, s = String "f" (String "a" (String "r" u)).
Proof.
  destruct s as [|c [|a [|r u]]]; try discriminate. cbn [starts_far]. intros H. apply andb_true_iff in H as [H1 H3].
  apply andb_true_iff in H1 as [H1 H2]. apply Ascii.eqb_eq in H1, H2, H3. subst. now exists u.
Qed.
(** the image never starts with "far" *)
Lemma replace_not_far s : starts_far (replace_far s) = false.
Proof.
  destruct s as [|c t]; [reflexivity|]. destruct (starts_far (String c t)) eqn:E.
  - apply starts_far_true in E as [u E]. injection E as -> ->. rewrite replace_far_hit. reflexivity.
  - rewrite replace_far_miss by auto. destruct t as [|a t]; [reflexivity|].
    destruct (starts_far (String a t)) eqn:E2.
    { apply starts_far_true in E2 as [u E2]. injection E2 as -> ->. rewrite replace_far_hit. cbn [append starts_far].
      destruct (Ascii.eqb c "f"); reflexivity. }
    rewrite replace_far_miss by auto. destruct t as [|r t]; [reflexivity|].
    destruct (starts_far (String r t)) eqn:E3.
    { apply starts_far_true in E3 as [u E3]. injection E3 as -> ->. rewrite replace_far_hit. cbn [append starts_far].
      destruct (Ascii.eqb c "f"), (Ascii.eqb a "a"); reflexivity. }
    rewrite replace_far_miss by auto. exact E.
Qed.
Lemma unreplace_miss c t : (Ascii.eqb c "i" && starts_far t = false) -> unreplace (String c t) = String c (unreplace t).
Proof.
  destruct t as [|f [|a [|r u]]]; try reflexivity. cbn [starts_far]. intros H. cbn [unreplace].
  rewrite !andb_assoc in H. now rewrite H.
Qed.
Lemma unreplace_replace s : unreplace (replace_far s) = s.
Proof.
  induction s as [s IH] using string_wf_ind. destruct s as [|c t]; [reflexivity|].
  destruct (starts_far (String c t)) eqn:E.
  - apply starts_far_true in E as [u E]. injection E as -> ->. rewrite replace_far_hit. cbn [append].
    cbn [unreplace Ascii.eqb Bool.eqb andb append]. rewrite IH; [reflexivity|cbn; lia].
  - rewrite replace_far_miss by auto. rewrite unreplace_miss.
    + rewrite IH; [reflexivity|cbn; lia].
    + rewrite replace_not_far. apply andb_false_r.
Qed.
Lemma replace_far_inj a b : replace_far a = replace_far b -> a = b.
Proof. intros H. rewrite <- (unreplace_replace a), <- (unreplace_replace b). now f_equal. Qed.
Lemma replace_has_ifar s : substring_of "far" s -> substring_of "ifar" (replace_far s).
Proof.
  induction s as [s IH] using string_wf_ind. intros [a [b E]]. destruct s as [|c t]; [destruct a; discriminate|].
  destruct (starts_far (String c t)) eqn:F.
  - apply starts_far_true in F as [u F]. injection F as -> ->. rewrite replace_far_hit. now exists EmptyString, (replace_far u).
  - rewrite replace_far_miss by auto. destruct a as [|c' a].
    + cbn in E. injection E as -> ->. cbn in F. discriminate.
    + injection E as -> E. destruct (IH t) as [x [y Z]]; [cbn; lia|now exists a, b|].
      exists (String c' x), y. cbn. now rewrite Z.
Qed.

(** ** Masks *)
Lemma nth_above thr c j : nth j (above thr c) false = xltb thr (nth j c NaN).
Proof.
  unfold above. replace false with (xltb thr NaN) by (destruct thr; reflexivity).
  apply (map_nth (fun x => xltb thr x)).
Qed.
Lemma orv_length a b : length a = length b -> length (orv a b) = length a.
Proof. intros H. unfold orv. rewrite map_length, combine_length, H. apply Nat.min_id. Qed.
Lemma nth_orv a b j : length a = length b -> nth j (orv a b) false = nth j a false || nth j b false.
Proof.
  intros H. unfold orv. etransitivity; [exact (map_nth (fun p : bool * bool => fst p || snd p) (combine a b) (false, false) j)|].
  rewrite combine_nth by auto. reflexivity.
Qed.
Lemma nth_andv a b j : length a = length b -> nth j (andv a b) false = nth j a false && nth j b false.
Proof.
  intros H. unfold andv. etransitivity; [exact (map_nth (fun p : bool * bool => fst p && snd p) (combine a b) (false, false) j)|].
  rewrite combine_nth by auto. reflexivity.
Qed.
Lemma andv_length a b : length a = length b -> length (andv a b) = length a.
Proof. intros H. unfold andv. rewrite map_length, combine_length, H. apply Nat.min_id. Qed.
Lemma above_length thr c : length (above thr c) = length c.
Proof. apply map_length. Qed.
Lemma nth_repeat_false n j : nth j (repeat false n) false = false.
Proof. revert j; induction n; intros [|j]; cbn; auto. Qed.
Lemma ifar_fold ifar n j : forall (data : list (string * list X)) f, length f = n -> (forall k c, In (k, c) data -> length c = n) ->
  let r := fold_left (fun f kc => if is_ifar_key (fst kc) then orv f (above ifar (snd kc)) else f) data f in
  length r = n /\ (nth j r false = true <-> nth j f false = true \/ exists k c, In (k, c) data /\ is_ifar_key k = true /\ xltb ifar (nth j c NaN) = true).
Proof.
  induction data as [|[k c] t IH]; intros f Lf Hc; cbn [fold_left].
  - split; auto. split; [auto|]. intros [H|[k [c [[] _]]]]; auto.
  - assert (Lc : length c = n) by (apply (Hc k); now left).
    cbn [fst snd]. destruct (is_ifar_key k) eqn:E.
    + assert (Lo : length f = length (above ifar c)) by (rewrite above_length; congruence).
      destruct (IH (orv f (above ifar c))) as [L H].
      { rewrite orv_length; auto. }
      { intros k' c' I. apply (Hc k'). now right. }
      split; auto. rewrite H, nth_orv, nth_above, orb_true_iff by auto. split.
      * intros [[A|A]|[k' [c' [I [B C]]]]]; [now left|right; exists k, c; split; [now left|auto]|right; exists k', c'; split; [now right|auto]].
      * intros [A|[k' [c' [[I|I] [B C]]]]]; [now left; left|injection I as -> ->; left; now right|right; now exists k', c'].
    + destruct (IH f Lf) as [L H]. { intros k' c' I. apply (Hc k'). now right. }
      split; auto. rewrite H. split.
      * intros [A|[k' [c' [I [B C]]]]]; [now left|right; exists k', c'; split; [now right|auto]].
      * intros [A|[k' [c' [[I|I] [B C]]]]]; [now left|injection I as -> ->; congruence|right; now exists k', c'].
Qed.
Lemma xltb_mono t1 t2 x : xleb t1 t2 = true -> xltb t2 x = true -> xltb t1 x = true.
Proof.
  destruct t1 as [a| | |], t2 as [b| | |], x as [c| | |]; cbn; try discriminate; auto.
  destruct (Rle_dec a b), (Rlt_dec b c), (Rlt_dec a c); try discriminate; auto. lra.
Qed.

(** ** add_ifar *)
Section AddIfar.
Notation inverted := (map (fun x => xdiv (Fin 1) x)).
Notation far_step := (fun (d : list (string * list X)) k => match dget d k with
                        | Some c => dset d (replace_far k) (inverted c)
                        | None => d end).
Lemma far_fold (L : list string) : forall d : list (string * list X), NoDup L -> NoDup (map fst d) ->
  (forall k, In k L -> In k (map fst d)) ->
  (forall k k', In k L -> In k' L -> replace_far k <> k') ->
  let r := fold_left far_step L d in
  NoDup (map fst r)
  /\ (forall k, In k L -> dget r (replace_far k) = option_map inverted (dget d k))
  /\ (forall k, ~ (exists k0, In k0 L /\ replace_far k0 = k) -> dget r k = dget d k).
Proof.
  induction L as [|k0 L IH]; intros d NL Nd Hin Hne; cbn [fold_left].
  - split; auto. split; [intros k []|auto].
  - inversion NL as [|? ? Hn NL']; subst.
    destruct (dget d k0) as [c0|] eqn:E0.
    2:{ apply dget_None in E0. exfalso. apply E0, Hin. now left. }
    destruct (IH (dset d (replace_far k0) (inverted c0))) as [N [G O]]; auto.
    { now apply dset_NoDup. }
    { intros k Hk. apply dset_keys. right. apply Hin. now right. }
    { intros k k' Hk Hk'. apply Hne; now right. }
    split; auto. split.
    + intros k [<-|Hk].
      * rewrite O.
        -- rewrite dget_dset, String.eqb_refl, E0. reflexivity.
        -- intros [k' [I E]]. apply replace_far_inj in E. congruence.
      * rewrite G by auto. rewrite dget_dset. destruct (String.eqb_spec (replace_far k0) k) as [E|]; auto.
        exfalso. apply (Hne k0 k); auto; [now left|now right].
    + intros k Hk. rewrite O.
      * rewrite dget_dset. destruct (String.eqb_spec (replace_far k0) k) as [E|]; auto.
        exfalso. apply Hk. exists k0. split; [now left|auto].
      * intros [k' [I E]]. apply Hk. exists k'. split; [now right|auto].
Qed.
End AddIfar.
Lemma In_filter_NoDup (f : string -> bool) l : NoDup l -> NoDup (filter f l).
Proof. intros N. now apply NoDup_filter. Qed.

(** ** Jacobians *)
From Coquelicot Require Import Coquelicot.
Ltac pos := unfold Rdiv; repeat first [assumption | apply Rmult_lt_0_compat | apply Rinv_0_lt_compat]; try lra.
Lemma primary_over_chirp_exp q : 0 < q -> primary_over_chirp q = exp (1/5 * ln (1 + q) - 3/5 * ln q).
Proof.
  intros H. unfold primary_over_chirp, Rpower, Rdiv. rewrite <- exp_Ropp, <- exp_plus. f_equal.
Qed.
Lemma primary_over_chirp_pos q : 0 < q -> 0 < primary_over_chirp q.
Proof. intros H. rewrite primary_over_chirp_exp by auto. apply exp_pos. Qed.
Lemma primary_over_chirp_derive q : 0 < q -> derivable_pt_lim primary_over_chirp q (primary_over_chirp q * (1/5 / (1 + q) - 3/5 / q)).
Proof.
  intros H. apply is_derive_Reals.
  apply (is_derive_ext_loc (fun q => exp (1/5 * ln (1 + q) - 3/5 * ln q))).
  - exists (mkposreal q H). intros y Hy. symmetry. apply primary_over_chirp_exp.
    unfold ball in Hy; cbn in Hy; unfold AbsRing_ball, abs, minus, plus, opp in Hy; cbn in Hy.
    apply Rabs_def2 in Hy. lra.
  - rewrite primary_over_chirp_exp by auto. auto_derive; [lra|]. unfold Rminus. set (E := exp _). field. lra.
Qed.
Lemma derive_R f x l : derivable_pt_lim f x l <-> is_derive f x l.
Proof. symmetry. apply is_derive_Reals. Qed.
(** the determinant for each choice of coordinates *)
Definition mass_jacobian (c : mass_coords) (z u v : R) : R :=
  match c with
  | SourceMasses => 1
  | SourceRatio => u
  | DetectedMasses => / (1 + z) * / (1 + z)
  | DetectedRatio => u / (1 + z) * / (1 + z)
  | ChirpRatio => u * primary_over_chirp v * primary_over_chirp v
  | DetectedChirpRatio => u * primary_over_chirp v / (1 + z) * (primary_over_chirp v / (1 + z))
  end.
Lemma mass_jacobian_correct c z u v : 0 < 1 + z -> 0 < u -> 0 < v ->
  jacobian (source_mass_1 c z) (source_mass_2 c z) u v (mass_jacobian c z u v) /\ 0 < mass_jacobian c z u v.
Proof.
  intros Hz Hu Hv. pose proof (primary_over_chirp_pos v Hv) as Pq. pose proof (primary_over_chirp_derive v Hv) as Dq.
  apply is_derive_Reals in Dq. pose proof (Rinv_0_lt_compat (1 + z) Hz) as Iz.
  unfold jacobian. destruct c; cbn [source_mass_1 source_mass_2 mass_jacobian].
  - split; [|lra]. exists 1, 0, 0, 1.
    do 4 (split; [apply is_derive_Reals; auto_derive; auto; ring|]). rewrite Rabs_right; lra.
  - split; [|lra]. exists 1, 0, v, u.
    do 4 (split; [apply is_derive_Reals; auto_derive; auto; ring|]). rewrite Rabs_right; lra.
  - split; [|pos]. exists (/ (1 + z)), 0, 0, (/ (1 + z)).
    do 4 (split; [apply is_derive_Reals; auto_derive; auto; field; lra|]). rewrite Rabs_right; [ring|]. apply Rle_ge, Rlt_le. replace (/ (1 + z) * / (1 + z) - 0 * 0) with (/ (1 + z) * / (1 + z)) by ring. pos.
  - split; [|pos]. exists (/ (1 + z)), 0, (v / (1 + z)), (u / (1 + z)).
    do 4 (split; [apply is_derive_Reals; auto_derive; auto; field; lra|]).
    rewrite Rabs_right; [unfold Rdiv; ring|]. apply Rle_ge, Rlt_le. match goal with |- 0 < ?e => replace e with (u / (1 + z) * / (1 + z)) by (field; lra) end. pos.
  - split; [|pos]. set (P' := primary_over_chirp v * (1/5 / (1 + v) - 3/5 / v)) in *.
    exists (primary_over_chirp v), (u * P'), (primary_over_chirp v * v), (u * P' * v + u * primary_over_chirp v).
    split; [apply is_derive_Reals; auto_derive; auto; ring|].
    split; [apply is_derive_Reals; apply (is_derive_scal primary_over_chirp v u P' Dq)|].
    split; [apply is_derive_Reals; auto_derive; auto; ring|].
    split.
    + apply is_derive_Reals.
      assert (Q := is_derive_mult (fun y => u * primary_over_chirp y) (fun y => y) v (u * P') 1
               (is_derive_scal primary_over_chirp v u P' Dq) (is_derive_id v) Rmult_comm).
      evar_last; [exact Q|]. unfold plus, mult; cbn. ring.
    + rewrite Rabs_right; [ring|]. apply Rle_ge, Rlt_le. match goal with |- 0 < ?e => replace e with (u * primary_over_chirp v * primary_over_chirp v) by ring end. pos.
  - assert (Pz : 0 < u * primary_over_chirp v / (1 + z) * (primary_over_chirp v / (1 + z))).
    { pos. }
    split; [|auto]. set (P' := primary_over_chirp v * (1/5 / (1 + v) - 3/5 / v)) in *.
    exists (primary_over_chirp v / (1 + z)), (u / (1 + z) * P'), (primary_over_chirp v / (1 + z) * v), (u / (1 + z) * P' * v + u / (1 + z) * primary_over_chirp v).
    assert (D1 : is_derive (fun y => u * primary_over_chirp y / (1 + z)) v (u / (1 + z) * P')).
    { eapply is_derive_ext; [|apply (is_derive_scal primary_over_chirp v (u / (1 + z)) P' Dq)]. intros t. cbn. unfold Rdiv. ring. }
    split; [apply is_derive_Reals; auto_derive; auto; field; lra|].
    split; [apply is_derive_Reals; exact D1|].
    split; [apply is_derive_Reals; auto_derive; auto; field; lra|].
    split.
    + apply is_derive_Reals.
      assert (Q := is_derive_mult (fun y => u * primary_over_chirp y / (1 + z)) (fun y => y) v _ 1 D1 (is_derive_id v) Rmult_comm).
      evar_last; [exact Q|]. unfold plus, mult; cbn. unfold Rdiv. ring.
    + rewrite Rabs_right; [field; lra|].
      match goal with |- ?e >= 0 => replace e with (u * primary_over_chirp v / (1 + z) * (primary_over_chirp v / (1 + z))) by (field; lra) end. lra.
Qed.

(** ** Steps of apply_injection_prior *)
Lemma chirp_jacobian_fin q : 0 < q -> chirp_jacobian (Fin q) = Fin (primary_over_chirp q).
Proof.
  intros H. unfold chirp_jacobian. cbn [xadd]. rewrite !xpow_fin by lra. cbn [xdiv].
  destruct (Req_EM_T (Rpower q (3/5)) 0) as [E|_]; [exfalso; unfold Rpower in E; pose proof (exp_pos (3/5 * ln q)); lra|]. reflexivity.
Qed.
Lemma put (d : list (string * X)) K v f p : K <> "prior"%string -> dget d "prior" = Some p ->
  exists d', update_prior f (dset d K v) = Some d' /\ dget d' K = Some v /\ dget d' "prior" = Some (f p)
    /\ forall k, k <> K -> k <> "prior"%string -> dget d' k = dget d k.
Proof.
  intros HK Hp. unfold update_prior. rewrite dget_dset. destruct (String.eqb_spec K "prior"); [easy|]. rewrite Hp. cbn [bind].
  eexists. split; [reflexivity|]. rewrite !dget_dset. destruct (String.eqb_spec "prior" K); [congruence|].
  rewrite String.eqb_refl. split; auto. split; auto. intros k H1 H2. rewrite !dget_dset.
  destruct (String.eqb_spec "prior" k); [congruence|]. destruct (String.eqb_spec K k); [congruence|auto].
Qed.
Lemma xdiv_Fin a b : b <> 0 -> xdiv (Fin a) (Fin b) = Fin (a / b).
Proof. intros H. cbn. destruct (Req_EM_T b 0); [easy|reflexivity]. Qed.
Lemma wants_spec k ps : wants k ps = true <-> In k ps.
Proof.
  unfold wants. rewrite existsb_exists. split.
  - intros [x [I E]]. apply String.eqb_eq in E. now subst.
  - intros I. exists k. split; auto. apply String.eqb_refl.
Qed.
Lemma wants_false k ps : wants k ps = false <-> ~ In k ps.
Proof. rewrite <- wants_spec. now destruct (wants k ps). Qed.

Section Steps.
Variable chieff_prior : X -> X -> X.
Variable chieff_chip_prior : X -> X -> X -> X.
Variables z_to_DL dDLdz : X -> X.
Variables (m1 m2 z a1 a2 c1 c2 : R).
Hypotheses (Hm1 : 0 < m1) (Hm2 : 0 < m2) (Hz : 0 < 1 + z).
Let CE := chieff_tilts (Fin m1) (Fin m2) (Fin a1) (Fin a2) (Fin c1) (Fin c2).
Let CP := chi_p_from_components (Fin a1) (Fin c1) (Fin a2) (Fin c2) (Fin (m2 / m1)).
Notation base := (injection m1 m2 z a1 a2 c1 c2).
Lemma base_put d d' K : base d -> ~ In K ["mass_1_source"; "mass_2_source"; "redshift"; "a_1"; "a_2"; "cos_tilt_1"; "cos_tilt_2"]%string ->
  (forall k, k <> K -> k <> "prior"%string -> dget d' k = dget d k) -> base d'.
Proof.
  intros [A [B [C [D [E [F G]]]]]] N H. cbn [In] in N. unfold injection. rewrite !H; try (repeat split; assumption); try discriminate; intros Q; apply N; subst K; tauto.
Qed.
Lemma aligned_fin x : x <> 0 -> aligned_spin_prior (Fin x) = Fin (- ln (Rabs x) / 2).
Proof.
  intros H. unfold aligned_spin_prior. cbn [xabs xln]. destruct (Rlt_dec 0 (Rabs x)) as [_|N]; [|exfalso; apply N; now apply Rabs_pos_lt].
  cbn [xopp]. now rewrite xdiv_Fin by lra.
Qed.
Lemma step_chi_spec d chi a c va vc p : chi <> "prior"%string -> dget d a = Some (Fin va) -> dget d c = Some (Fin vc) -> dget d "prior" = Some (Fin p) ->
  va * vc <> 0 ->
  exists d', step_chi chi a c d = Some d' /\ dget d' chi = Some (Fin (va * vc)) /\ dget d' "prior" = Some (Fin (p * - ln (Rabs (va * vc))))
    /\ forall k, k <> chi -> k <> "prior"%string -> dget d' k = dget d k.
Proof.
  intros Hc Ha Hcc Hp Hn. unfold step_chi. rewrite Ha, Hcc. cbn [bind xmul].
  destruct (put d chi (Fin (va * vc)) (fun p => xmul p (xmul (Fin 2) (aligned_spin_prior (Fin (va * vc))))) (Fin p) Hc Hp) as [d' [E [G [P O]]]].
  exists d'. split; auto. split; auto. split; auto. rewrite P, aligned_fin by auto. cbn [xmul]. do 2 f_equal. field.
Qed.
Notation isotropic_value := (isotropic_value chieff_prior chieff_chip_prior m1 m2 a1 a2 c1 c2).
Lemma step_effective_spin_spec ps d p e : base d -> dget d "prior" = Some (Fin p) ->
  (dget d "mass_ratio" = None \/ dget d "mass_ratio" = Some (Fin (m2 / m1))) -> isotropic_value ps e ->
  exists d', step_effective_spin chieff_prior chieff_chip_prior ps d = Some d' /\ dget d' "chi_eff" = Some CE
    /\ (wants "chi_p" ps = true -> dget d' "chi_p" = Some CP)
    /\ dget d' "mass_ratio" = Some (Fin (m2 / m1)) /\ dget d' "prior" = Some (Fin (p * (4 * e)))
    /\ forall k, k <> "chi_eff"%string -> k <> "chi_p"%string -> k <> "mass_ratio"%string -> k <> "prior"%string -> dget d' k = dget d k.
Proof.
  intros [A [B [C [D [E [F G]]]]]] Hp Hq He. unfold step_effective_spin. rewrite A, B, D, E, F, G. cbn [bind]. fold CE.
  set (d1 := dset d "chi_eff" CE).
  set (d2 := match dget d1 "mass_ratio" with Some _ => d1 | None => _ end).
  assert (Q1 : dget d1 "mass_ratio" = dget d "mass_ratio") by (unfold d1; now rewrite dget_dset).
  assert (Q2 : dget d2 "mass_ratio" = Some (Fin (m2 / m1))).
  { unfold d2. rewrite Q1. destruct Hq as [Hq|Hq]; rewrite Hq; [|now rewrite Q1].
    rewrite dget_dset, String.eqb_refl. now rewrite xdiv_Fin by lra. }
  assert (O2 : forall k, k <> "mass_ratio"%string -> dget d2 k = dget d1 k).
  { intros k Hk. unfold d2. destruct (dget d1 "mass_ratio"); auto. rewrite dget_dset. destruct (String.eqb_spec "mass_ratio" k); [congruence|auto]. }
  assert (O1 : forall k, k <> "chi_eff"%string -> dget d1 k = dget d k).
  { intros k Hk. unfold d1. rewrite dget_dset. destruct (String.eqb_spec "chi_eff" k); [congruence|auto]. }
  clearbody d2. rewrite Q2. cbn [bind]. fold CP. unfold Spec_Injections.isotropic_value in He; fold CE CP in He.
  set (d3 := fst (if wants "chi_p" ps then (dset d2 "chi_p" CP, chieff_chip_prior CE CP (Fin (m2 / m1))) else (d2, chieff_prior CE (Fin (m2 / m1))))).
  assert (V : snd (if wants "chi_p" ps then (dset d2 "chi_p" CP, chieff_chip_prior CE CP (Fin (m2 / m1))) else (d2, chieff_prior CE (Fin (m2 / m1)))) = Fin e).
  { destruct (wants "chi_p" ps); exact He. }
  rewrite V.
  assert (O3 : forall k, k <> "chi_p"%string -> dget d3 k = dget d2 k).
  { intros k Hk. unfold d3. destruct (wants "chi_p" ps); cbn [fst]; auto. rewrite dget_dset. destruct (String.eqb_spec "chi_p" k); [congruence|auto]. }
  assert (P3 : dget d3 "prior" = Some (Fin p)) by (rewrite O3, O2, O1 by discriminate; exact Hp).
  unfold update_prior. rewrite P3. cbn [bind]. eexists. split; [reflexivity|]. rewrite !dget_dset. cbn [String.eqb Ascii.eqb Bool.eqb].
  split; [rewrite O3, O2 by discriminate; unfold d1; now rewrite dget_dset|]. split.
  { intros W. unfold d3. rewrite W. cbn [fst]. now rewrite dget_dset. }
  split; [rewrite O3 by discriminate; exact Q2|]. split.
  - rewrite xdiv_Fin by lra. cbn [xmul]. do 2 f_equal. field.
  - intros k H1 H2 H3 H4. rewrite dget_dset. destruct (String.eqb_spec "prior" k); [congruence|]. now rewrite O3, O2, O1.
Qed.
Notation spin_factor := (spin_factor a1 a2 c1 c2).
Lemma spin_stage ps d p e : base d -> dget d "prior" = Some (Fin p) ->
  (dget d "mass_ratio" = None \/ dget d "mass_ratio" = Some (Fin (m2 / m1))) ->
  (wants "chi_eff" ps = true -> isotropic_value ps e) ->
  (wants "chi_1" ps = true -> a1 * c1 <> 0) -> (wants "chi_2" ps = true -> a2 * c2 <> 0) ->
  exists d', guard "chi_2" ps (step_chi "chi_2" "a_2" "cos_tilt_2") (guard "chi_1" ps (step_chi "chi_1" "a_1" "cos_tilt_1")
      (guard "chi_eff" ps (step_effective_spin chieff_prior chieff_chip_prior ps) (Some d))) = Some d'
    /\ base d' /\ dget d' "prior" = Some (Fin (p * spin_factor ps e))
    /\ (dget d "mass_ratio" <> None -> dget d' "mass_ratio" = dget d "mass_ratio")
    /\ forall k, ~ In k ["chi_eff"; "chi_p"; "chi_1"; "chi_2"; "mass_ratio"; "prior"]%string -> dget d' k = dget d k.
Proof.
  intros Hb Hp Hq He H1 H2. unfold guard.
  (* effective spin *)
  assert (E1 : exists d1, (if wants "chi_eff" ps then bind (Some d) (step_effective_spin chieff_prior chieff_chip_prior ps) else Some d) = Some d1
    /\ base d1 /\ dget d1 "prior" = Some (Fin (p * (if wants "chi_eff" ps then 4 * e else 1)))
    /\ (dget d "mass_ratio" <> None -> dget d1 "mass_ratio" = dget d "mass_ratio")
    /\ forall k, k <> "chi_eff"%string -> k <> "chi_p"%string -> k <> "mass_ratio"%string -> k <> "prior"%string -> dget d1 k = dget d k).
  { destruct (wants "chi_eff" ps) eqn:W.
    - destruct (step_effective_spin_spec ps d p e Hb Hp Hq (He eq_refl)) as [d1 [E [_ [_ [Q [P O]]]]]]. exists d1. split; [exact E|]. split.
      + destruct Hb as [B1 [B2 [B3 [B4 [B5 [B6 B7]]]]]]. unfold injection. rewrite !O by discriminate. repeat split; assumption.
      + split; [exact P|]. split; [|exact O]. intros N. destruct Hq as [Hq|Hq]; [easy|congruence].
    - exists d. split; auto. split; auto. split; [rewrite Rmult_1_r; auto|]. auto. }
  destruct E1 as [d1 [-> [Hb1 [P1 [Q1 O1]]]]].
  assert (E2 : exists d2, (if wants "chi_1" ps then bind (Some d1) (step_chi "chi_1" "a_1" "cos_tilt_1") else Some d1) = Some d2
    /\ base d2 /\ dget d2 "prior" = Some (Fin (p * (if wants "chi_eff" ps then 4 * e else 1) * (if wants "chi_1" ps then - ln (Rabs (a1 * c1)) else 1)))
    /\ forall k, k <> "chi_1"%string -> k <> "prior"%string -> dget d2 k = dget d1 k).
  { destruct (wants "chi_1" ps) eqn:W.
    - pose proof Hb1 as [B1 [B2 [B3 [B4 [B5 [B6 B7]]]]]].
      destruct (step_chi_spec d1 "chi_1" "a_1" "cos_tilt_1" a1 c1 _ ltac:(discriminate) B4 B6 P1 (H1 eq_refl)) as [d2 [E [_ [P O]]]].
      exists d2. split; [exact E|]. split; [|auto]. eapply base_put; eauto. cbn. intuition discriminate.
    - exists d1. split; auto. split; auto. split; [rewrite Rmult_1_r; auto|]. auto. }
  destruct E2 as [d2 [-> [Hb2 [P2 O2]]]].
  assert (E3 : exists d3, (if wants "chi_2" ps then bind (Some d2) (step_chi "chi_2" "a_2" "cos_tilt_2") else Some d2) = Some d3
    /\ base d3 /\ dget d3 "prior" = Some (Fin (p * (if wants "chi_eff" ps then 4 * e else 1) * (if wants "chi_1" ps then - ln (Rabs (a1 * c1)) else 1) * (if wants "chi_2" ps then - ln (Rabs (a2 * c2)) else 1)))
    /\ forall k, k <> "chi_2"%string -> k <> "prior"%string -> dget d3 k = dget d2 k).
  { destruct (wants "chi_2" ps) eqn:W.
    - pose proof Hb2 as [B1 [B2 [B3 [B4 [B5 [B6 B7]]]]]].
      destruct (step_chi_spec d2 "chi_2" "a_2" "cos_tilt_2" a2 c2 _ ltac:(discriminate) B5 B7 P2 (H2 eq_refl)) as [d3 [E [_ [P O]]]].
      exists d3. split; [exact E|]. split; [|auto]. eapply base_put; eauto. cbn. intuition discriminate.
    - exists d2. split; auto. split; auto. split; [rewrite Rmult_1_r; auto|]. auto. }
  destruct E3 as [d3 [-> [Hb3 [P3 O3]]]].
  exists d3. split; auto. split; auto. split; [rewrite P3; unfold Spec_Injections.spin_factor; do 2 f_equal; ring|]. split.
  - intros N. rewrite O3, O2 by discriminate. auto.
  - intros k N. cbn [In] in N. rewrite O3, O2, O1; auto; intros ->; apply N; tauto.
Qed.
Lemma step_mass_ratio_spec d p : base d -> dget d "prior" = Some (Fin p) ->
  exists d', step_mass_ratio d = Some d' /\ base d' /\ dget d' "mass_ratio" = Some (Fin (m2 / m1)) /\ dget d' "prior" = Some (Fin (p * m1))
    /\ forall k, k <> "mass_ratio"%string -> k <> "prior"%string -> dget d' k = dget d k.
Proof.
  intros Hb Hp. pose proof Hb as [A [B _]]. unfold step_mass_ratio. rewrite A, B. cbn [bind]. rewrite xdiv_Fin by lra.
  destruct (put d "mass_ratio" (Fin (m2 / m1)) (fun p => xmul p (Fin m1)) (Fin p) ltac:(discriminate) Hp) as [d' [E [G [P O]]]].
  exists d'. split; auto. split; [eapply base_put; eauto; cbn; intuition discriminate|auto].
Qed.
Lemma Pq : 0 < primary_over_chirp (m2 / m1).
Proof. apply primary_over_chirp_pos. now apply Rdiv_lt_0_compat. Qed.
Lemma step_chirp_spec d p : base d -> dget d "mass_ratio" = Some (Fin (m2 / m1)) -> dget d "prior" = Some (Fin p) ->
  exists d', step_chirp_mass d = Some d' /\ base d' /\ dget d' "chirp_mass" = Some (Fin (m1 / primary_over_chirp (m2 / m1)))
    /\ dget d' "prior" = Some (Fin (p * primary_over_chirp (m2 / m1)))
    /\ forall k, k <> "chirp_mass"%string -> k <> "prior"%string -> dget d' k = dget d k.
Proof.
  intros Hb Hq Hp. pose proof Hb as [A _]. unfold step_chirp_mass. rewrite A, Hq. cbn [bind]. pose proof Pq as PQ.
  rewrite chirp_jacobian_fin by (now apply Rdiv_lt_0_compat). rewrite xdiv_Fin by lra.
  destruct (put d "chirp_mass" (Fin (m1 / primary_over_chirp (m2 / m1))) (fun p => xmul p (Fin (primary_over_chirp (m2 / m1)))) (Fin p) ltac:(discriminate) Hp) as [d' [E [G [P O]]]].
  exists d'. split; auto. split; [eapply base_put; eauto; cbn; intuition discriminate|auto].
Qed.
Lemma step_m1d_spec d p : base d -> dget d "prior" = Some (Fin p) ->
  exists d', step_mass_1_detected d = Some d' /\ base d' /\ dget d' "mass_1" = Some (Fin (m1 * (1 + z))) /\ dget d' "prior" = Some (Fin (p / (1 + z)))
    /\ forall k, k <> "mass_1"%string -> k <> "prior"%string -> dget d' k = dget d k.
Proof.
  intros Hb Hp. pose proof Hb as [A [_ [C _]]]. unfold step_mass_1_detected. rewrite A, C. cbn [bind xadd xmul].
  destruct (put d "mass_1" (Fin (m1 * (1 + z))) (fun p => xdiv p (Fin (1 + z))) (Fin p) ltac:(discriminate) Hp) as [d' [E [G [P O]]]].
  exists d'. split; auto. split; [eapply base_put; eauto; cbn; intuition discriminate|]. split; auto. split; auto. rewrite P. now rewrite xdiv_Fin by lra.
Qed.
Lemma step_m2d_spec d p q m : base d -> 0 < m -> dget d "mass_1" = Some (Fin m) -> dget d "mass_ratio" = Some (Fin q) -> dget d "prior" = Some (Fin p) ->
  exists d', step_mass_2_detected d = Some d' /\ base d' /\ dget d' "mass_2" = Some (Fin (m * q)) /\ dget d' "prior" = Some (Fin (p / m))
    /\ forall k, k <> "mass_2"%string -> k <> "prior"%string -> dget d' k = dget d k.
Proof.
  intros Hb Hm A B Hp. unfold step_mass_2_detected. rewrite A, B. cbn [bind xmul].
  destruct (put d "mass_2" (Fin (m * q)) (fun p => xdiv p (Fin m)) (Fin p) ltac:(discriminate) Hp) as [d' [E [G [P O]]]].
  exists d'. split; auto. split; [eapply base_put; eauto; cbn; intuition discriminate|]. split; auto. split; auto. rewrite P. now rewrite xdiv_Fin by lra.
Qed.
Lemma step_chirpd_spec d p : base d -> dget d "mass_ratio" = Some (Fin (m2 / m1)) -> dget d "mass_1" = None -> dget d "prior" = Some (Fin p) ->
  exists d', step_chirp_mass_detector d = Some d' /\ base d' /\ dget d' "chirp_mass_detector" = Some (Fin (m1 * (1 + z) / primary_over_chirp (m2 / m1)))
    /\ dget d' "prior" = Some (Fin (p * (primary_over_chirp (m2 / m1) / (1 + z))))
    /\ forall k, k <> "chirp_mass_detector"%string -> k <> "prior"%string -> dget d' k = dget d k.
Proof.
  intros Hb Hq Hm Hp. pose proof Hb as [A [_ [C _]]]. unfold step_chirp_mass_detector. rewrite Hq, Hm. cbn [bind]. rewrite A, C. cbn [bind xadd xmul]. pose proof Pq as PQ.
  rewrite chirp_jacobian_fin by (now apply Rdiv_lt_0_compat). rewrite !xdiv_Fin by lra.
  destruct (put d "chirp_mass_detector" (Fin (m1 * (1 + z) / primary_over_chirp (m2 / m1))) (fun p => xmul p (Fin (primary_over_chirp (m2 / m1) / (1 + z)))) (Fin p) ltac:(discriminate) Hp) as [d' [E [G [P O]]]].
  exists d'. split; auto. split; [eapply base_put; eauto; cbn; intuition discriminate|auto].
Qed.
Lemma step_DL_spec d p DL D : base d -> D <> 0 -> z_to_DL (Fin z) = Fin DL -> dDLdz (Fin z) = Fin D -> dget d "prior" = Some (Fin p) ->
  exists d', step_luminosity_distance z_to_DL dDLdz d = Some d' /\ base d' /\ dget d' "luminosity_distance" = Some (Fin DL) /\ dget d' "prior" = Some (Fin (p / D))
    /\ forall k, k <> "luminosity_distance"%string -> k <> "prior"%string -> dget d' k = dget d k.
Proof.
  intros Hb HD E1 E2 Hp. pose proof Hb as [_ [_ [C _]]]. unfold step_luminosity_distance. rewrite C. cbn [bind]. rewrite E1, E2.
  destruct (put d "luminosity_distance" (Fin DL) (fun p => xdiv p (Fin D)) (Fin p) ltac:(discriminate) Hp) as [d' [E [G [P O]]]].
  exists d'. split; auto. split; [eapply base_put; eauto; cbn; intuition discriminate|]. split; auto. split; auto. rewrite P. now rewrite xdiv_Fin.
Qed.
End Steps.
