(** Lemmas about the environment. *)
From Coq Require Import String Ascii List Bool Arith Lia.
From Verif Require Import Model_Environment Spec_Environment.
Import ListNotations.
Open Scope string_scope.

Lemma append_assoc (a b c : string) : (a ++ b) ++ c = a ++ (b ++ c).
Proof. induction a as [|x a IH]; cbn; [reflexivity|f_equal; exact IH]. Qed.
Lemma append_inj (a b c : string) : a ++ b = a ++ c -> b = c.
Proof. induction a as [|x a IH]; cbn; intros E; [exact E|]. injection E as E. exact (IH E). Qed.
Lemma prefix_spec p s : String.prefix p s = true <-> exists b, s = p ++ b.
Proof.
  revert s; induction p as [|c p IH]; intros s.
  - cbn. split; [intros _; now exists s|auto]. destruct s; auto.
  - destruct s as [|c' s]; cbn.
    + split; [discriminate|]. intros [b E]. discriminate.
    + destruct (ascii_dec c c') as [->|N].
      * rewrite IH. split; intros [b E]; exists b; [now rewrite E|now injection E].
      * split; [discriminate|]. intros [b E]. injection E as E1 E2. congruence.
Qed.
Lemma one_of_In s l : one_of s l = true <-> In s l.
Proof.
  unfold one_of. rewrite existsb_exists. split.
  - intros (x & Hx & E). apply String.eqb_eq in E. now subst.
  - intros H. exists s. split; [exact H|apply String.eqb_refl].
Qed.

(** ** capitals *)
Definition is_small (c : ascii) : bool := let n := nat_of_ascii c in negb ((65 <=? n) && (n <=? 90))%nat.
Definition same_letterb (a b : ascii) : bool :=
  Ascii.eqb a b || existsb (fun p => Ascii.eqb a (fst p) && Ascii.eqb b (snd p)) letters.
Lemma same_letterb_iff a b : same_letterb a b = true <-> same_letter a b.
Proof.
  unfold same_letterb, same_letter. rewrite orb_true_iff, Ascii.eqb_eq, existsb_exists.
  split; intros [E|E]; auto; right.
  - destruct E as ((x, y) & I & E). apply andb_true_iff in E. cbn in E. rewrite !Ascii.eqb_eq in E. destruct E as [-> ->]. exact I.
  - exists (a, b). cbn. rewrite !Ascii.eqb_refl. auto.
Qed.
Definition all_ascii : list ascii := map ascii_of_nat (seq 0 256).
Lemma all_ascii_In c : In c all_ascii.
Proof.
  rewrite <- (ascii_nat_embedding c). apply in_map. apply in_seq. pose proof (nat_ascii_bounded c). lia.
Qed.
Lemma lower_table :
  forallb (fun a => forallb (fun b => negb (is_small b) || eqb (Ascii.eqb (lower_char a) b) (same_letterb a b)) all_ascii) all_ascii = true.
Proof. vm_compute. reflexivity. Qed.
Lemma lower_char_iff a b : is_small b = true -> (lower_char a = b <-> same_letter a b).
Proof.
  intros Hb. pose proof lower_table as H. rewrite forallb_forall in H. specialize (H a (all_ascii_In a)).
  rewrite forallb_forall in H. specialize (H b (all_ascii_In b)). rewrite Hb in H. cbn [negb orb] in H.
  apply eqb_prop in H. rewrite <- same_letterb_iff, <- H, Ascii.eqb_eq. reflexivity.
Qed.
Lemma lower_reads w : forallb is_small (list_ascii_of_string w) = true -> forall s, lower s = w <-> reads s w.
Proof.
  unfold reads. induction w as [|b w IH]; intros Hw s.
  - destruct s; cbn; split; intros H; try discriminate; auto. inversion H.
  - cbn in Hw. apply andb_true_iff in Hw. destruct Hw as [Hb Hw]. destruct s as [|a s]; cbn.
    + split; intros H; [discriminate|inversion H].
    + split.
      * intros E. injection E as E1 E2. constructor; [apply lower_char_iff; assumption|]. apply IH; assumption.
      * intros H. inversion H; subst. f_equal; [apply lower_char_iff; assumption|]. apply IH; assumption.
Qed.

(** ** split *)
Lemma drop_length a b : drop (String.length a) (a ++ b) = b.
Proof. induction a as [|c a IH]; cbn; [destruct b; reflexivity|exact IH]. Qed.
Lemma find_first_Some sep s : forall a b, find_first sep s = Some (a, b) -> s = a ++ sep ++ b.
Proof.
  induction s as [|c s IH]; intros a b H.
  - cbn [find_first] in H. destruct (String.prefix sep "") eqn:P; [|discriminate].
    apply prefix_spec in P. destruct P as [x E]. injection H as <- <-.
    pose proof (drop_length sep x) as D. rewrite <- E in D. rewrite D. exact E.
  - cbn [find_first] in H. destruct (String.prefix sep (String c s)) eqn:P.
    + apply prefix_spec in P. destruct P as [x E]. injection H as <- <-. pose proof (drop_length sep x) as D. rewrite <- E in D. rewrite D. exact E.
    + destruct (find_first sep s) as [[a' b']|]; [|discriminate]. cbn in H. injection H as <- <-.
      cbn. f_equal. apply IH. reflexivity.
Qed.
Lemma find_first_None sep s : find_first sep s = None <-> ~ contains sep s.
Proof.
  split.
  - intros H (a & b & E). revert a E H. induction s as [|c s IH]; intros a E H; cbn [find_first] in H.
    + destruct a; [|discriminate]. assert (P : String.prefix sep "" = true) by (apply prefix_spec; exists b; exact E). rewrite P in H. discriminate.
    + destruct (String.prefix sep (String c s)) eqn:P; [discriminate|].
      destruct a as [|x a].
      * assert (P' : String.prefix sep (String c s) = true) by (apply prefix_spec; exists b; exact E). congruence.
      * cbn in E. injection E as _ E. apply (IH a E). destruct (find_first sep s); [discriminate|reflexivity].
  - intros H. destruct (find_first sep s) as [[a b]|] eqn:E; [|reflexivity].
    exfalso. apply H. exists a, b. apply find_first_Some. exact E.
Qed.
Lemma at_most_once_split sep a b : at_most_once sep (a ++ sep ++ b) -> sep <> "" ->
  find_first sep (a ++ sep ++ b) = Some (a, b) /\ find_first sep b = None.
Proof.
  intros U Hs. split.
  - destruct (find_first sep (a ++ sep ++ b)) as [[a' b']|] eqn:E.
    + pose proof (find_first_Some _ _ _ _ E) as E'. pose proof (U a b a' b' eq_refl E') as <-.
      apply append_inj, append_inj in E'. subst. reflexivity.
    + exfalso. apply find_first_None in E. apply E. exists a, b. reflexivity.
  - apply find_first_None. intros (x & y & E). subst b.
    assert (E : a = a ++ sep ++ x).
    { apply (U _ (x ++ sep ++ y) _ y); [reflexivity|]. rewrite !append_assoc. reflexivity. }
    assert (L : String.length a = String.length (a ++ sep ++ x)) by (rewrite <- E; reflexivity).
    assert (LA : forall p q, String.length (p ++ q) = String.length p + String.length q).
    { induction p as [|c p IH]; intros q; cbn; [reflexivity|f_equal; apply IH]. }
    rewrite !LA in L. destruct sep; [congruence|]. cbn in L. lia.
Qed.

(** ** join *)
Lemma ends_in_slash_end s : ends_in_slash s = true -> end_of "/" s.
Proof.
  induction s as [|c s IH]; intros H; [discriminate|]. destruct s as [|d s].
  - cbn in H. apply Ascii.eqb_eq in H. subst. exists "". reflexivity.
  - destruct (IH H) as [a E]. exists (String c a). cbn. f_equal. exact E.
Qed.
Lemma join_lies dir file : dir <> "" -> ~ absolute file -> lies_in dir (join dir file).
Proof.
  intros Hd Ha. unfold join, lies_in.
  destruct (String.prefix "/" file) eqn:P.
  - exfalso. apply Ha. apply prefix_spec in P. exact P.
  - exists file. destruct (String.eqb_spec dir ""); [contradiction|]. cbn [orb].
    destruct (ends_in_slash dir) eqn:E; [right|left; reflexivity]. split; [exact (ends_in_slash_end _ E)|reflexivity].
Qed.

Lemma version_charb_In c :
  existsb (Ascii.eqb c) (list_ascii_of_string "0123456789abcdefghijklmnopqrstuvwxyz") = true -> version_char c.
Proof. intros H. apply existsb_exists in H. destruct H as (x & I & E). apply Ascii.eqb_eq in E. subst. exact I. Qed.
