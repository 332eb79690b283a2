(** Lemmas for C116: the iterated integral of box functions, its invariance under moves of one coordinate, and the
    integral of non-negative continuous functions. *)
From Coq Require Import Reals List Lra Lia FunctionalExtensionality.
From Coquelicot Require Import Coquelicot.
From Verif Require Import Spec_Invariance.
Import ListNotations.
Open Scope R_scope.

(** ** Fubini's theorem for uniformly continuous functions of two variables *)
Definition uc2 (g : R -> R -> R) : Prop := forall eps, 0 < eps -> exists d, 0 < d /\
  forall s t s' t', Rabs (s - s') < d -> Rabs (t - t') < d -> Rabs (g s t - g s' t') < eps.
Lemma uc2_continuous_1 g t s : uc2 g -> continuous (fun s => g s t) s.
Proof.
  intros U. apply continuity_pt_filterlim. intros eps He. destruct (U eps He) as [d [Hd H]].
  exists d. split; [exact Hd|]. intros s' [_ Hs]. cbn in *. unfold R_dist in *.
  apply H; [exact Hs|]. rewrite Rminus_eq_0, Rabs_R0. exact Hd.
Qed.
Lemma uc2_swap g : uc2 g -> uc2 (fun s t => g t s).
Proof. intros U eps He. destruct (U eps He) as [d [Hd H]]. exists d. split; [exact Hd|]. intros; apply H; assumption. Qed.
Lemma uc2_continuous_2 g t s : uc2 g -> continuous (fun t => g s t) t.
Proof. intros U. apply (uc2_continuous_1 (fun s t => g t s) s t (uc2_swap g U)). Qed.
Lemma ex_RInt_continuous_all (f : R -> R) a b : (forall x, continuous f x) -> ex_RInt f a b.
Proof. intros C. apply (ex_RInt_continuous (V := R_CompleteNormedModule)). intros x _. apply C. Qed.
Lemma RInt_small (f g : R -> R) a b e : a <= b -> (forall x, continuous f x) -> (forall x, continuous g x) ->
  (forall x, a <= x <= b -> Rabs (f x - g x) <= e) -> Rabs (RInt f a b - RInt g a b) <= (b - a) * e.
Proof.
  intros Hab Cf Cg H.
  assert (E : RInt f a b - RInt g a b = RInt (fun x => f x - g x) a b).
  { symmetry. apply (RInt_minus f g); apply ex_RInt_continuous_all; assumption. }
  rewrite E. apply (abs_RInt_le_const (fun x => f x - g x) a b e Hab).
  - apply (ex_RInt_minus f g); apply ex_RInt_continuous_all; assumption.
  - exact H.
Qed.
Lemma uc2_inner g a b : a <= b -> uc2 g -> forall s, continuous (fun s => RInt (g s) a b) s.
Proof.
  intros Hab U s. apply continuity_pt_filterlim. intros eps He.
  destruct (U (eps / (b - a + 1))) as [d [Hd H]]; [apply Rdiv_lt_0_compat; lra|].
  exists d. split; [exact Hd|]. intros s' [_ Hs]. cbn in *. unfold R_dist in *.
  apply Rle_lt_trans with ((b - a) * (eps / (b - a + 1))).
  - apply RInt_small; auto; try (intros; apply uc2_continuous_2; assumption).
    intros x _. apply Rlt_le, H; [exact Hs|]. rewrite Rminus_eq_0, Rabs_R0. exact Hd.
  - replace ((b - a) * (eps / (b - a + 1))) with (eps * ((b - a) / (b - a + 1))) by (field; lra).
    rewrite <- (Rmult_1_r eps) at 2. apply Rmult_lt_compat_l; [exact He|]. apply Rmult_lt_reg_r with (b - a + 1); [lra|].
    unfold Rdiv. rewrite Rmult_assoc, Rinv_l; lra.
Qed.
Lemma fubini g a b c d : a <= b -> c <= d -> uc2 g ->
  RInt (fun s => RInt (fun t => g s t) c d) a b = RInt (fun t => RInt (fun s => g s t) a b) c d.
Proof.
  intros Hab Hcd U.
  set (F := fun u : R => (RInt (fun s => RInt (fun t => g s t) c d) a u : R)).
  set (G := fun u : R => (RInt (fun t => RInt (fun s => g s t) a u) c d : R)).
  assert (DF : forall u, is_derive F u (RInt (fun t => g u t) c d)).
  { intros u. apply (is_derive_RInt (fun s => RInt (fun t => g s t) c d) F a u).
    - apply filter_forall. intros x. apply (RInt_correct (V := R_CompleteNormedModule)). apply ex_RInt_continuous_all. apply uc2_inner; assumption.
    - apply (uc2_inner g c d Hcd U u). }
  assert (D1 : forall u t, is_derive (fun u => RInt (fun s => g s t) a u) u (g u t)).
  { intros u t. apply (is_derive_RInt (fun s => g s t) (fun u => RInt (fun s => g s t) a u) a u).
    - apply filter_forall. intros x. apply (RInt_correct (V := R_CompleteNormedModule)). apply ex_RInt_continuous_all. intros y. apply uc2_continuous_1; assumption.
    - apply uc2_continuous_1; assumption. }
  assert (DG : forall u, is_derive G u (RInt (fun t => g u t) c d)).
  { intros u. unfold G.
    assert (E : RInt (fun t => g u t) c d = RInt (fun t => Derive (fun u => RInt (fun s => g s t) a u) u) c d).
    { apply RInt_ext. intros t _. symmetry. apply is_derive_unique, D1. }
    rewrite E. apply (is_derive_RInt_param (fun u t => RInt (fun s => g s t) a u) c d u).
    - apply filter_forall. intros x t _. exists (g x t). apply D1.
    - intros t _ eps. destruct (U eps (cond_pos eps)) as [e [He H]]. exists (mkposreal e He). cbn. intros u' v' H1 H2.
      replace (Derive _ u') with (g u' v') by (symmetry; apply is_derive_unique, D1).
      replace (Derive _ u) with (g u t) by (symmetry; apply is_derive_unique, D1). apply H; assumption.
    - apply filter_forall. intros y. apply ex_RInt_continuous_all. intros t.
      destruct (Rle_dec a y) as [L|L].
      + apply (uc2_inner (fun t s => g s t) a y L (uc2_swap g U) t).
      + apply continuous_ext with (fun t => opp (RInt (fun s => g s t) y a)).
        * intros x. apply (opp_RInt_swap (fun s => g s x)). apply ex_RInt_continuous_all. intros z. apply uc2_continuous_1; assumption.
        * apply (continuous_opp (fun t => RInt (fun s => g s t) y a)).
          apply (uc2_inner (fun t s => g s t) y a); [lra|apply uc2_swap; exact U]. }
  assert (Z : F a - G a = 0).
  { unfold F, G. rewrite RInt_point. rewrite (RInt_ext _ (fun _ => 0)).
    - rewrite RInt_const. unfold scal, zero; cbn; unfold mult; cbn. ring.
    - intros x _. exact (RInt_point a (fun s => g s x)). }
  change (F b = G b). enough (F b - G b = F a - G a) by lra.
  destruct (MVT_gen (fun u => F u - G u) a b (fun _ => 0)) as [x [_ M]].
  - intros x _. replace 0 with (RInt (fun t => g x t) c d - RInt (fun t => g x t) c d) by ring.
    apply (is_derive_minus F G); auto.
  - intros x _. apply derivable_continuous_pt. exists 0. apply is_derive_Reals.
    replace 0 with (RInt (fun t => g x t) c d - RInt (fun t => g x t) c d) by ring.
    apply (is_derive_minus F G); auto.
  - lra.
Qed.

(** ** Iterated integrals of box functions *)
Section Coordinates.
Context {A : Type} (dec : forall a b : A, {a = b} + {a <> b}).
Notation upd := (set_coord dec).
Notation vec := (A -> R).
Lemma upd_same z i t : upd z i t i = t.
Proof. unfold set_coord. destruct (dec i i); [reflexivity|congruence]. Qed.
Lemma upd_other z i t j : j <> i -> upd z i t j = z j.
Proof. unfold set_coord. destruct (dec j i); [congruence|reflexivity]. Qed.
Lemma upd_upd z i s t : upd (upd z i s) i t = upd z i t.
Proof. apply functional_extensionality. intros j. unfold set_coord. destruct (dec j i); reflexivity. Qed.
Lemma upd_swap z i j s t : i <> j -> upd (upd z i s) j t = upd (upd z j t) i s.
Proof. intros N. apply functional_extensionality. intros k. unfold set_coord. destruct (dec k j), (dec k i); congruence. Qed.
Lemma upd_id z i : upd z i (z i) = z.
Proof. apply functional_extensionality. intros j. unfold set_coord. destruct (dec j i); congruence. Qed.

Definition supp (l : list A) (phi : vec -> R) : Prop := exists B, forall z i, In i l -> B < Rabs (z i) -> phi z = 0.
Definition uc (l : list A) (phi : vec -> R) : Prop :=
  forall eps, 0 < eps -> exists d, 0 < d /\ forall z w, near l d z w -> Rabs (phi z - phi w) < eps.
Lemma in_box_dec l B (z : vec) : in_box l B z \/ exists i, In i l /\ B < Rabs (z i).
Proof.
  induction l as [|i l IH].
  - left. intros i [].
  - destruct (Rle_dec (Rabs (z i)) B) as [H|H].
    + destruct IH as [IH|[j [Hj IH]]].
      * left. intros j [<-|Hj]; auto.
      * right. exists j. split; [right|]; assumption.
    + right. exists i. split; [left; reflexivity|lra].
Qed.
Lemma box_function_iff l phi : box_function l phi <-> supp l phi /\ uc l phi.
Proof.
  split; intros [[B H] U]; (split; [exists B|exact U]).
  - intros z i Hi L. apply H. intros K. specialize (K i Hi). lra.
  - intros z N. destruct (in_box_dec l B z) as [K|[i [Hi L]]]; [contradiction|]. now apply (H z i).
Qed.
Lemma near_upd l d z w i t : 0 < d -> near l d z w -> near l d (upd z i t) (upd w i t).
Proof.
  intros Hd H j Hj. unfold set_coord. destruct (dec j i); [|apply H; exact Hj].
  rewrite Rminus_eq_0, Rabs_R0. exact Hd.
Qed.
Lemma near_upd_line l d (z : vec) i s t : 0 < d -> Rabs (s - t) < d -> near l d (upd z i s) (upd z i t).
Proof.
  intros Hd H j Hj. unfold set_coord. destruct (dec j i); [exact H|]. rewrite Rminus_eq_0, Rabs_R0. exact Hd.
Qed.
Lemma near_refl l d (z : vec) : 0 < d -> near l d z z.
Proof. intros Hd i _. rewrite Rminus_eq_0, Rabs_R0. exact Hd. Qed.
Lemma near_sym l d (z w : vec) : near l d z w -> near l d w z.
Proof. intros H i Hi. rewrite Rabs_minus_sym. now apply H. Qed.
Lemma line_continuous l phi z i : uc l phi -> forall t, continuous (fun t => phi (upd z i t)) t.
Proof.
  intros U t. apply continuity_pt_filterlim. intros eps He. destruct (U eps He) as [d [Hd H]].
  exists d. split; [exact Hd|]. intros s [_ Hs]. cbn in *. unfold R_dist in *. apply H, near_upd_line; assumption.
Qed.
Lemma RInt_zero (f : R -> R) a b : a <= b -> (forall x, a < x < b -> f x = 0) -> RInt f a b = 0.
Proof.
  intros Hab H. rewrite (RInt_ext _ (fun _ => 0)).
  - rewrite RInt_const. unfold scal; cbn; unfold mult; cbn. ring.
  - intros x. rewrite Rmin_left, Rmax_right by lra. apply H.
Qed.
Lemma over_RInt l i phi B z : uc l phi -> 0 <= B -> (forall z, B < Rabs (z i) -> phi z = 0) ->
  over dec i phi z = RInt (fun t => phi (upd z i t)) (- B) B.
Proof.
  intros U HB S. unfold over. set (f := fun t => phi (upd z i t)).
  assert (C : forall t, continuous f t) by (apply (line_continuous l); exact U).
  assert (Z : forall t, B < Rabs t -> f t = 0). { intros t Ht. apply S. rewrite upd_same. exact Ht. }
  apply (is_RInt_gen_unique (V := R_CompleteNormedModule)). intros P HP.
  apply (Filter_prod _ _ _ (fun a => a < - B) (fun b => B < b)).
  - exists (- B). intros x Hx. exact Hx.
  - exists B. intros x Hx. exact Hx.
  - intros a b Ha Hb. cbn [fst snd]. exists (RInt f (- B) B). split; [|now apply locally_singleton].
    assert (E : RInt f (- B) B = RInt f a b).
    { rewrite <- (RInt_Chasles f a (- B) b) by (apply ex_RInt_continuous_all, C).
      rewrite <- (RInt_Chasles f (- B) B b) by (apply ex_RInt_continuous_all, C).
      rewrite (RInt_zero f a (- B)), (RInt_zero f B b).
      - unfold plus; cbn. ring.
      - lra.
      - intros x Hx. apply Z. rewrite Rabs_pos_eq; lra.
      - lra.
      - intros x Hx. apply Z. rewrite Rabs_left1; lra. }
    rewrite E. apply (RInt_correct (V := R_CompleteNormedModule)). apply ex_RInt_continuous_all, C.
Qed.
Lemma supp_pos l phi : supp l phi -> exists B, 0 <= B /\ forall z i, In i l -> B < Rabs (z i) -> phi z = 0.
Proof.
  intros [B H]. exists (Rmax 0 B). split; [apply Rmax_l|]. intros z i Hi L. apply (H z i Hi).
  eapply Rle_lt_trans; [apply Rmax_r|exact L].
Qed.
Lemma over_uc full i phi : uc full phi -> supp [i] phi -> uc full (over dec i phi).
Proof.
  intros U S eps He. destruct (supp_pos _ _ S) as [B [HB Z]].
  destruct (U (eps / (2 * B + 1))) as [d [Hd H]]; [apply Rdiv_lt_0_compat; lra|].
  exists d. split; [exact Hd|]. intros z w N.
  rewrite !(over_RInt full i phi B) by (first [assumption | intros v Hv; apply (Z v i); [left; reflexivity|exact Hv]]).
  apply Rle_lt_trans with ((B - - B) * (eps / (2 * B + 1))).
  - apply RInt_small; [lra|apply (line_continuous full); exact U|apply (line_continuous full); exact U|].
    intros t _. apply Rlt_le, H, near_upd; assumption.
  - replace ((B - - B) * (eps / (2 * B + 1))) with (eps * (2 * B / (2 * B + 1))) by (field; lra).
    rewrite <- (Rmult_1_r eps) at 2. apply Rmult_lt_compat_l; [exact He|]. apply Rmult_lt_reg_r with (2 * B + 1); [lra|].
    unfold Rdiv. rewrite Rmult_assoc, Rinv_l; lra.
Qed.
Lemma supp_incl l l' phi : incl l' l -> supp l phi -> supp l' phi.
Proof. intros I [B H]. exists B. intros z i Hi. apply H. now apply I. Qed.
Lemma over_supp full i l phi : uc full phi -> supp (i :: l) phi -> ~ In i l -> supp l (over dec i phi).
Proof.
  intros U S N. destruct (supp_pos _ _ S) as [B [HB Z]]. exists B. intros z j Hj L.
  rewrite (over_RInt full i phi B) by (first [assumption | intros v Hv; apply (Z v i); [left; reflexivity|exact Hv]]).
  apply RInt_zero; [lra|]. intros x _. apply (Z _ j); [right; exact Hj|].
  rewrite upd_other; [exact L|]. intros ->. contradiction.
Qed.
Lemma over_comm full i j phi z : i <> j -> uc full phi -> supp [i; j] phi ->
  over dec i (over dec j phi) z = over dec j (over dec i phi) z.
Proof.
  intros N U S. destruct (supp_pos _ _ S) as [B [HB Z]].
  assert (Zi : forall v, B < Rabs (v i) -> phi v = 0) by (intros v; apply Z; left; reflexivity).
  assert (Zj : forall v, B < Rabs (v j) -> phi v = 0) by (intros v; apply Z; right; left; reflexivity).
  assert (Ui : uc full (over dec i phi)) by (apply over_uc; [exact U|]; apply (supp_incl [i; j]); [intros k [<-|[]]; left; reflexivity|exact S]).
  assert (Uj : uc full (over dec j phi)) by (apply over_uc; [exact U|]; apply (supp_incl [i; j]); [intros k [<-|[]]; right; left; reflexivity|exact S]).
  rewrite (over_RInt full i (over dec j phi) B), (over_RInt full j (over dec i phi) B); auto.
  - rewrite (RInt_ext (fun t => over dec j phi (upd z i t)) (fun s => RInt (fun t => phi (upd (upd z i s) j t)) (- B) B))
      by (intros; apply (over_RInt full); auto).
    rewrite (RInt_ext (fun t => over dec i phi (upd z j t)) (fun t => RInt (fun s => phi (upd (upd z i s) j t)) (- B) B)).
    + apply (fubini (fun s t => phi (upd (upd z i s) j t))); try lra.
      intros eps He. destruct (U eps He) as [d [Hd H]]. exists d. split; [exact Hd|].
      intros s t s' t' Hs Ht. apply H. intros k Hk. unfold set_coord. destruct (dec k j); [exact Ht|]. destruct (dec k i); [exact Hs|].
      rewrite Rminus_eq_0, Rabs_R0. exact Hd.
    + intros t _. rewrite (over_RInt full i phi B) by auto. apply RInt_ext. intros s _. now rewrite upd_swap by congruence.
  - intros v Hv. rewrite (over_RInt full i phi B) by auto. apply RInt_zero; [lra|]. intros x _. apply Zj. now rewrite upd_other by congruence.
  - intros v Hv. rewrite (over_RInt full j phi B) by auto. apply RInt_zero; [lra|]. intros x _. apply Zi. now rewrite upd_other by congruence.
Qed.
Notation ints l phi := (fold_right (over dec) phi l).
Lemma ints_class full l : forall r phi, uc full phi -> supp (l ++ r) phi -> NoDup (l ++ r) ->
  uc full (ints l phi) /\ supp r (ints l phi).
Proof.
  induction l as [|i l IH]; intros r phi U S N; [split; assumption|].
  destruct (IH (i :: r) phi U) as [U' S'].
  - apply (supp_incl ((i :: l) ++ r)); [|exact S]. intros k Hk. apply in_app_or in Hk. cbn. rewrite in_app_iff. destruct Hk as [Hk|[<-|Hk]]; auto.
  - inversion N as [|? ? N1 N2]; subst. apply NoDup_Add with (a := i) (l := (l ++ r)%list); [apply Add_app|]. split; assumption.
  - cbn. split.
    + apply over_uc; [exact U'|]. apply (supp_incl (i :: r)); [|exact S']. intros k [<-|[]]. left; reflexivity.
    + apply (over_supp full); [exact U'|exact S'|]. inversion N as [|? ? N1 N2]; subst. intros K. apply N1, in_or_app. right; exact K.
Qed.
(** one coordinate may be integrated first *)
Lemma over_ints full i l : forall phi, uc full phi -> supp (i :: l) phi -> NoDup (i :: l) ->
  over dec i (ints l phi) = ints l (over dec i phi).
Proof.
  induction l as [|j l IH]; intros phi U S N; [reflexivity|]. cbn.
  assert (Nj : NoDup (i :: l)). { inversion N as [|? ? N1 N2]; subst. inversion N2; subst. constructor; auto. intros K. apply N1. right; exact K. }
  rewrite <- IH; auto.
  - apply functional_extensionality. intros z. apply (over_comm full).
    + inversion N as [|? ? N1 N2]; subst. intros ->. apply N1. left; reflexivity.
    + apply (ints_class full l [i; j] phi U).
      * apply (supp_incl (i :: j :: l)); [|exact S]. intros k Hk. apply in_app_or in Hk. cbn in *. tauto.
      * apply NoDup_Add with (a := i) (l := (l ++ [j])%list); [apply Add_app|]. inversion N as [|? ? N1 N2]; subst. split.
        -- apply NoDup_Add with (a := j) (l := (l ++ [])%list); [apply Add_app|]. rewrite app_nil_r. inversion N2; subst. split; assumption.
        -- intros K. apply N1. apply in_app_or in K. cbn in *. tauto.
    + apply (ints_class full l [i; j] phi U).
      * apply (supp_incl (i :: j :: l)); [|exact S]. intros k Hk. apply in_app_or in Hk. cbn in *. tauto.
      * apply NoDup_Add with (a := i) (l := (l ++ [j])%list); [apply Add_app|]. inversion N as [|? ? N1 N2]; subst. split.
        -- apply NoDup_Add with (a := j) (l := (l ++ [])%list); [apply Add_app|]. rewrite app_nil_r. inversion N2; subst. split; assumption.
        -- intros K. apply N1. apply in_app_or in K. cbn in *. tauto.
  - apply (supp_incl (i :: j :: l)); [|exact S]. intros k [<-|Hk]; cbn; auto.
Qed.
Lemma ints_first full i l1 l2 phi : uc full phi -> supp (l1 ++ i :: l2) phi -> NoDup (l1 ++ i :: l2) ->
  ints (l1 ++ i :: l2) phi = ints l1 (ints l2 (over dec i phi)).
Proof.
  intros U S N. rewrite fold_right_app. cbn [fold_right]. f_equal. apply (over_ints full); auto.
  - apply (supp_incl (l1 ++ i :: l2)); [|exact S]. intros k Hk. apply in_or_app. right; exact Hk.
  - clear -N. induction l1 as [|a l IH]; [exact N|]. inversion N; subst. now apply IH.
Qed.
End Coordinates.

(** ** Linearity, and moves of one coordinate *)
Lemma line_total (f : R -> R) a b : a <= b -> (forall t, continuous f t) -> (forall t, t < a \/ b < t -> f t = 0) ->
  RInt_gen f (Rbar_locally m_infty) (Rbar_locally p_infty) = RInt f a b.
Proof.
  intros Hab C Z. apply (is_RInt_gen_unique (V := R_CompleteNormedModule)). intros P HP.
  apply (Filter_prod _ _ _ (fun x => x < a) (fun y => b < y)).
  - exists a. intros x Hx. exact Hx.
  - exists b. intros x Hx. exact Hx.
  - intros x y Hx Hy. cbn [fst snd]. exists (RInt f a b). split; [|now apply locally_singleton].
    assert (E : RInt f a b = RInt f x y).
    { rewrite <- (RInt_Chasles f x a y) by (apply ex_RInt_continuous_all, C).
      rewrite <- (RInt_Chasles f a b y) by (apply ex_RInt_continuous_all, C).
      rewrite (RInt_zero f x a), (RInt_zero f b y).
      - unfold plus; cbn. ring.
      - lra.
      - intros t Ht. apply Z. lra.
      - lra.
      - intros t Ht. apply Z. lra. }
    rewrite E. apply (RInt_correct (V := R_CompleteNormedModule)). apply ex_RInt_continuous_all, C.
Qed.
Lemma cancel_pos (k v : R) : k <> 0 -> v = / k * (k * v).
Proof. intros H. field. exact H. Qed.
Lemma cancel_neg (k v : R) : k <> 0 -> v = / (- k) * (k * - v).
Proof. intros H. field. exact H. Qed.
Lemma RInt_times (f : R -> R) k a b : (forall t, continuous f t) -> RInt (fun t => k * f t) a b = k * RInt f a b.
Proof. intros C. apply (RInt_scal f). apply ex_RInt_continuous_all, C. Qed.
Lemma RInt_turn (f : R -> R) a b : (forall t, continuous f t) -> RInt f a b = - RInt f b a.
Proof. intros C. symmetry. apply (opp_RInt_swap f). apply ex_RInt_continuous_all, C. Qed.
Lemma line_affine (g : R -> R) B a c : 0 <= B -> a <> 0 -> (forall t, continuous g t) -> (forall t, B < Rabs t -> g t = 0) ->
  RInt_gen (fun t => g (a * t + c)) (Rbar_locally m_infty) (Rbar_locally p_infty) = / Rabs a * RInt g (- B) B.
Proof.
  intros HB Ha C Z.
  assert (C' : forall t, continuous (fun t => g (a * t + c)) t).
  { intros t. apply (continuous_comp (fun t => a * t + c) g); [|apply C].
    apply (continuous_plus (fun t => a * t) (fun _ => c)); [|apply continuous_const].
    apply (continuous_mult (fun _ => a) (fun t => t)); [apply continuous_const|apply continuous_id]. }
  destruct (Rlt_dec 0 a) as [Pa|Pa].
  - rewrite (line_total _ ((- B - c) / a) ((B - c) / a)).
    + assert (E : RInt (fun t => a * g (a * t + c)) ((- B - c) / a) ((B - c) / a) = RInt g (a * ((- B - c) / a) + c) (a * ((B - c) / a) + c)).
      { apply (RInt_comp_lin g a c). apply ex_RInt_continuous_all, C. }
      replace (a * ((- B - c) / a) + c) with (- B) in E by (field; lra).
      replace (a * ((B - c) / a) + c) with B in E by (field; lra).
      rewrite <- E, RInt_times by exact C'. rewrite Rabs_pos_eq by lra. apply cancel_pos. lra.
    + apply Rmult_le_compat_r; [apply Rlt_le, Rinv_0_lt_compat; lra|lra].
    + exact C'.
    + intros t [H|H]; apply Z.
      * assert (L : a * t + c < - B). { apply (Rmult_lt_compat_l a) in H; [|exact Pa]. replace (a * ((- B - c) / a)) with (- B - c) in H by (field; lra). lra. }
        rewrite Rabs_left1; lra.
      * assert (L : B < a * t + c). { apply (Rmult_lt_compat_l a) in H; [|exact Pa]. replace (a * ((B - c) / a)) with (B - c) in H by (field; lra). lra. }
        rewrite Rabs_pos_eq; lra.
  - assert (Na : a < 0) by lra. rewrite (line_total _ ((B - c) / a) ((- B - c) / a)).
    + assert (E : RInt (fun t => a * g (a * t + c)) ((- B - c) / a) ((B - c) / a) = RInt g (a * ((- B - c) / a) + c) (a * ((B - c) / a) + c)).
      { apply (RInt_comp_lin g a c). apply ex_RInt_continuous_all, C. }
      replace (a * ((- B - c) / a) + c) with (- B) in E by (field; lra).
      replace (a * ((B - c) / a) + c) with B in E by (field; lra).
      rewrite <- E, RInt_times by exact C'.
      rewrite (RInt_turn (fun t => g (a * t + c)) ((- B - c) / a)) by exact C'. rewrite Rabs_left by lra. apply cancel_neg. lra.
    + apply Ropp_le_cancel. replace (- ((- B - c) / a)) with ((- B - c) / - a) by (field; lra).
      replace (- ((B - c) / a)) with ((B - c) / - a) by (field; lra).
      apply Rmult_le_compat_r; [apply Rlt_le, Rinv_0_lt_compat; lra|lra].
    + exact C'.
    + intros t [H|H]; apply Z.
      * assert (L : B < a * t + c). { apply (Rmult_lt_compat_l (- a)) in H; [|lra]. replace (- a * ((B - c) / a)) with (- (B - c)) in H by (field; lra). lra. }
        rewrite Rabs_pos_eq; lra.
      * assert (L : a * t + c < - B). { apply (Rmult_lt_compat_l (- a)) in H; [|lra]. replace (- a * ((- B - c) / a)) with (- (- B - c)) in H by (field; lra). lra. }
        rewrite Rabs_left1; lra.
Qed.

Section Moves.
Context {A : Type} (dec : forall a b : A, {a = b} + {a <> b}).
Notation upd := (set_coord dec).
Notation vec := (A -> R).
Notation ints l phi := (fold_right (over dec) phi l).
Lemma uc_plus l (f g : vec -> R) : uc l f -> uc l g -> uc l (fun z => f z + g z).
Proof.
  intros F G eps He. destruct (F (eps / 2)) as [d [Hd H]]; [lra|]. destruct (G (eps / 2)) as [e [Hf K]]; [lra|].
  exists (Rmin d e). split; [apply Rmin_pos; assumption|]. intros z w N.
  specialize (H z w). specialize (K z w). replace (f z + g z - (f w + g w)) with ((f z - f w) + (g z - g w)) by ring.
  eapply Rle_lt_trans; [apply Rabs_triang|].
  assert (H' : Rabs (f z - f w) < eps / 2). { apply H. intros i Hi. eapply Rlt_le_trans; [apply N, Hi|apply Rmin_l]. }
  assert (K' : Rabs (g z - g w) < eps / 2). { apply K. intros i Hi. eapply Rlt_le_trans; [apply N, Hi|apply Rmin_r]. }
  lra.
Qed.
Lemma uc_scal l k (f : vec -> R) : uc l f -> uc l (fun z => k * f z).
Proof.
  intros F eps He. assert (Pk := Rabs_pos k). destruct (F (eps / (Rabs k + 1))) as [d [Hd H]]; [apply Rdiv_lt_0_compat; lra|].
  exists d. split; [exact Hd|]. intros z w N. specialize (H z w N). replace (k * f z - k * f w) with (k * (f z - f w)) by ring.
  rewrite Rabs_mult. apply Rle_lt_trans with (Rabs k * (eps / (Rabs k + 1))).
  - apply Rmult_le_compat_l; lra.
  - replace (Rabs k * (eps / (Rabs k + 1))) with (eps * (Rabs k / (Rabs k + 1))) by (field; lra).
    rewrite <- (Rmult_1_r eps) at 2. apply Rmult_lt_compat_l; [exact He|]. apply Rmult_lt_reg_r with (Rabs k + 1); [lra|].
    unfold Rdiv. rewrite Rmult_assoc, Rinv_l; lra.
Qed.
Lemma supp_plus l (f g : vec -> R) : supp l f -> supp l g -> supp l (fun z => f z + g z).
Proof.
  intros [B F] [C G]. exists (Rmax B C). intros z i Hi H.
  rewrite (F z i Hi), (G z i Hi); [ring|eapply Rle_lt_trans; [apply Rmax_r|exact H]|eapply Rle_lt_trans; [apply Rmax_l|exact H]].
Qed.
Lemma supp_scal l k (f : vec -> R) : supp l f -> supp l (fun z => k * f z).
Proof. intros [B F]. exists B. intros z i Hi H. rewrite (F z i Hi H). ring. Qed.
Lemma over_plus full i (f g : vec -> R) z : uc full f -> uc full g -> supp [i] f -> supp [i] g ->
  over dec i (fun z => f z + g z) z = over dec i f z + over dec i g z.
Proof.
  intros F G Sf Sg. destruct (supp_pos _ _ Sf) as [B [HB Zf]]. destruct (supp_pos _ _ Sg) as [C [HC Zg]].
  assert (Zf' : forall v : vec, Rmax B C < Rabs (v i) -> f v = 0).
  { intros v Hv. apply (Zf v i); [left; reflexivity|eapply Rle_lt_trans; [apply Rmax_l|exact Hv]]. }
  assert (Zg' : forall v : vec, Rmax B C < Rabs (v i) -> g v = 0).
  { intros v Hv. apply (Zg v i); [left; reflexivity|eapply Rle_lt_trans; [apply Rmax_r|exact Hv]]. }
  assert (HM : 0 <= Rmax B C) by (eapply Rle_trans; [exact HB|apply Rmax_l]).
  rewrite !(over_RInt dec full i _ (Rmax B C)); auto.
  - apply (RInt_plus (fun t => f (upd z i t)) (fun t => g (upd z i t))); apply ex_RInt_continuous_all; apply (line_continuous dec full); assumption.
  - apply uc_plus; assumption.
  - intros v Hv. rewrite Zf', Zg' by assumption. ring.
Qed.
Lemma over_scal full i k (f : vec -> R) z : uc full f -> supp [i] f ->
  over dec i (fun z => k * f z) z = k * over dec i f z.
Proof.
  intros F Sf. destruct (supp_pos _ _ Sf) as [B [HB Zf]].
  assert (Zf' : forall v : vec, B < Rabs (v i) -> f v = 0) by (intros v Hv; apply (Zf v i); [left; reflexivity|exact Hv]).
  rewrite !(over_RInt dec full i _ B); auto.
  - apply (RInt_scal (fun t => f (upd z i t))). apply ex_RInt_continuous_all. apply (line_continuous dec full); assumption.
  - apply uc_scal; assumption.
  - intros v Hv. rewrite Zf' by assumption. ring.
Qed.
Lemma supp_app_r l (f : vec -> R) i : supp (i :: l) f -> supp (l ++ [i]) f.
Proof. apply supp_incl. intros k Hk. apply in_app_or in Hk. cbn in *. tauto. Qed.
Lemma NoDup_app_r (l : list A) i : NoDup (i :: l) -> NoDup (l ++ [i]).
Proof.
  intros N. apply NoDup_Add with (a := i) (l := (l ++ [])%list); [apply Add_app|]. rewrite app_nil_r. inversion N; subst. split; assumption.
Qed.
Lemma ints_plus full l (f g : vec -> R) : uc full f -> uc full g -> supp l f -> supp l g -> NoDup l ->
  ints l (fun z => f z + g z) = (fun z => ints l f z + ints l g z).
Proof.
  induction l as [|i l IH]; intros F G Sf Sg N; [reflexivity|]. cbn. rewrite IH; auto.
  - apply functional_extensionality. intros z.
    destruct (ints_class dec full l [i] f F) as [F' Sf']; [apply supp_app_r; assumption|apply NoDup_app_r; assumption|].
    destruct (ints_class dec full l [i] g G) as [G' Sg']; [apply supp_app_r; assumption|apply NoDup_app_r; assumption|].
    apply (over_plus full); assumption.
  - apply (supp_incl (i :: l)); [intros k Hk; right; exact Hk|exact Sf].
  - apply (supp_incl (i :: l)); [intros k Hk; right; exact Hk|exact Sg].
  - inversion N; assumption.
Qed.
Lemma ints_scal full l k (f : vec -> R) : uc full f -> supp l f -> NoDup l ->
  ints l (fun z => k * f z) = (fun z => k * ints l f z).
Proof.
  induction l as [|i l IH]; intros F Sf N; [reflexivity|]. cbn. rewrite IH; auto.
  - apply functional_extensionality. intros z.
    destruct (ints_class dec full l [i] f F) as [F' Sf']; [apply supp_app_r; assumption|apply NoDup_app_r; assumption|].
    apply (over_scal full); assumption.
  - apply (supp_incl (i :: l)); [intros j Hj; right; exact Hj|exact Sf].
  - inversion N; assumption.
Qed.

(** *** Continuous functions *)
Variable l : list A.
Notation cob := (continuous_coords l).
Definition agree (z w : vec) : Prop := forall i, In i l -> z i = w i.
Lemma box_exists (l' : list A) (z : vec) : exists B, 0 <= B /\ in_box l' B z.
Proof.
  induction l' as [|i l' [B [HB IH]]]; [exists 0; split; [lra|intros i []]|].
  exists (Rmax B (Rabs (z i))). split; [eapply Rle_trans; [exact HB|apply Rmax_l]|].
  intros j [<-|Hj]; [apply Rmax_r|]. eapply Rle_trans; [apply IH, Hj|apply Rmax_l].
Qed.
Lemma in_box_le B B' (z : vec) : B <= B' -> in_box l B z -> in_box l B' z.
Proof. intros L H i Hi. eapply Rle_trans; [apply H, Hi|exact L]. Qed.
Lemma near_le d d' (z w : vec) : d <= d' -> near l d z w -> near l d' z w.
Proof. intros L H i Hi. eapply Rlt_le_trans; [apply H, Hi|exact L]. Qed.
Lemma agree_near d z w : 0 < d -> agree z w -> near l d z w.
Proof. intros Hd H i Hi. rewrite (H i Hi), Rminus_eq_0, Rabs_R0. exact Hd. Qed.
Lemma agree_sym z w : agree z w -> agree w z.
Proof. intros H i Hi. symmetry. now apply H. Qed.
Lemma agree_trans z w v : agree z w -> agree w v -> agree z v.
Proof. intros H K i Hi. rewrite (H i Hi). now apply K. Qed.
Lemma cob_agree g z w : cob g -> agree z w -> g z = g w.
Proof.
  intros C H. destruct (box_exists l z) as [B [HB Hz]].
  assert (Hw : in_box l B w) by (intros i Hi; rewrite <- (H i Hi); now apply Hz).
  apply cond_eq. intros eps He. destruct (C B eps He) as [d [Hd K]]. apply K; auto. now apply agree_near.
Qed.
Lemma uc_agree g z w : uc l g -> agree z w -> g z = g w.
Proof. intros C H. apply cond_eq. intros eps He. destruct (C eps He) as [d [Hd K]]. apply K. now apply agree_near. Qed.
Lemma uc_cob g : uc l g -> cob g.
Proof. intros U B eps He. destruct (U eps He) as [d [Hd H]]. exists d. split; auto. Qed.
Lemma cob_supp_uc g : cob g -> supp l g -> uc l g.
Proof.
  intros C S eps He. destruct (supp_pos _ _ S) as [B [HB Z]]. destruct (C (B + 1) eps He) as [d [Hd H]].
  exists (Rmin d 1). split; [apply Rmin_pos; lra|]. intros z w N.
  assert (N1 : near l d z w) by (apply (near_le (Rmin d 1)); [apply Rmin_l|exact N]).
  assert (N2 : near l 1 z w) by (apply (near_le (Rmin d 1)); [apply Rmin_r|exact N]).
  destruct (in_box_dec l (B + 1) z) as [Hz|[i [Hi Hz]]].
  - destruct (in_box_dec l (B + 1) w) as [Hw|[i [Hi Hw]]]; [now apply H|].
    rewrite (Z w i Hi), (Z z i Hi); [rewrite Rminus_eq_0, Rabs_R0; exact He| |lra].
    specialize (N2 i Hi). assert (T := Rabs_triang (z i) (w i - z i)). replace (z i + (w i - z i)) with (w i) in T by ring.
    rewrite (Rabs_minus_sym (w i)) in T. lra.
  - rewrite (Z z i Hi), (Z w i Hi); [rewrite Rminus_eq_0, Rabs_R0; exact He| |lra].
    specialize (N2 i Hi). assert (T := Rabs_triang (w i) (z i - w i)). replace (w i + (z i - w i)) with (z i) in T by ring. lra.
Qed.
Lemma cob_bounded g B : cob g -> exists K, 0 <= K /\ forall z, in_box l B z -> Rabs (g z) <= K.
Proof.
  intros C. destruct (Rle_dec 0 B) as [HB|HB].
  2:{ destruct l as [|i l'] eqn:E.
      - exists (Rabs (g (fun _ => 0))). split; [apply Rabs_pos|]. intros z _.
        assert (g z = g (fun _ => 0)) as ->; [|lra]. apply cond_eq. intros eps He. destruct (C 0 eps He) as [d [Hd K]].
        apply K; intros i [].
      - exists 0. split; [lra|]. intros z Hz. specialize (Hz i (or_introl eq_refl)). assert (P := Rabs_pos (z i)). lra. }
  destruct (C B 1 Rlt_0_1) as [d [Hd H]].
  destruct (archimed_cor1 (d / (B + 1))) as [N [HN PN]]; [apply Rdiv_lt_0_compat; lra|].
  set (o := fun _ : A => 0). exists (Rabs (g o) + INR N).
  assert (PN' : 0 < INR N) by (apply lt_0_INR; exact PN).
  split; [assert (P := Rabs_pos (g o)); lra|]. intros z Hz.
  assert (S : forall k, (k <= N)%nat -> Rabs (g (fun i => INR k / INR N * z i) - g o) <= INR k).
  { induction k as [|k IH]; intros Hk.
    - replace (fun i => INR 0 / INR N * z i) with o; [rewrite Rminus_eq_0, Rabs_R0; cbn; lra|].
      apply functional_extensionality. intros i. unfold o. cbn. field. lra.
    - assert (In1 : forall j, (j <= N)%nat -> in_box l B (fun i => INR j / INR N * z i)).
      { intros j Hj i Hi. rewrite Rabs_mult. assert (Q : 0 <= INR j / INR N <= 1).
        { split; [apply Rdiv_le_0_compat; [apply pos_INR|exact PN']|]. apply Rmult_le_reg_r with (INR N); [exact PN'|].
          unfold Rdiv. rewrite Rmult_assoc, Rinv_l by lra. rewrite Rmult_1_r, Rmult_1_l. apply le_INR, Hj. }
        rewrite Rabs_pos_eq by lra. specialize (Hz i Hi). assert (P := Rabs_pos (z i)).
        apply Rle_trans with (1 * Rabs (z i)); [apply Rmult_le_compat_r; lra|lra]. }
      assert (E : Rabs (g (fun i => INR (S k) / INR N * z i) - g (fun i => INR k / INR N * z i)) < 1).
      { apply H; [apply In1; lia|apply In1; lia|]. intros i Hi. rewrite S_INR.
        replace ((INR k + 1) / INR N * z i - INR k / INR N * z i) with (/ INR N * z i) by (field; lra).
        rewrite Rabs_mult, Rabs_pos_eq by (apply Rlt_le, Rinv_0_lt_compat; exact PN').
        specialize (Hz i Hi). apply Rle_lt_trans with (/ INR N * B).
        - apply Rmult_le_compat_l; [apply Rlt_le, Rinv_0_lt_compat; exact PN'|exact Hz].
        - apply Rle_lt_trans with (/ INR N * (B + 1)).
          + apply Rmult_le_compat_l; [apply Rlt_le, Rinv_0_lt_compat; exact PN'|lra].
          + apply Rmult_lt_reg_r with (/ (B + 1)); [apply Rinv_0_lt_compat; lra|]. rewrite Rmult_assoc, Rinv_r by lra.
            rewrite Rmult_1_r. exact HN. }
      specialize (IH ltac:(lia)). rewrite S_INR in *.
      assert (T := Rabs_triang (g (fun i => INR (S k) / INR N * z i) - g (fun i => INR k / INR N * z i)) (g (fun i => INR k / INR N * z i) - g o)).
      replace (g (fun i => INR (S k) / INR N * z i) - g (fun i => INR k / INR N * z i) + (g (fun i => INR k / INR N * z i) - g o))
        with (g (fun i => INR (S k) / INR N * z i) - g o) in T by ring.
      rewrite S_INR in *. lra. }
  specialize (S N (le_n N)). replace (fun i => INR N / INR N * z i) with z in S
    by (apply functional_extensionality; intros i; field; lra).
  assert (T := Rabs_triang (g z - g o) (g o)). replace (g z - g o + g o) with (g z) in T by ring. lra.
Qed.
Lemma cob_const k : cob (fun _ => k).
Proof. intros B eps He. exists 1. split; [lra|]. intros. rewrite Rminus_eq_0, Rabs_R0. exact He. Qed.
Lemma cob_coord i : In i l -> cob (fun z => z i).
Proof. intros Hi B eps He. exists eps. split; [exact He|]. intros z w _ _ N. now apply N. Qed.
Lemma cob_plus f g : cob f -> cob g -> cob (fun z => f z + g z).
Proof.
  intros F G B eps He. destruct (F B (eps / 2)) as [d [Hd H]]; [lra|]. destruct (G B (eps / 2)) as [e [Hf K]]; [lra|].
  exists (Rmin d e). split; [apply Rmin_pos; assumption|]. intros z w Hz Hw N.
  replace (f z + g z - (f w + g w)) with ((f z - f w) + (g z - g w)) by ring.
  eapply Rle_lt_trans; [apply Rabs_triang|].
  assert (H' : Rabs (f z - f w) < eps / 2) by (apply H; auto; apply (near_le (Rmin d e)); [apply Rmin_l|exact N]).
  assert (K' : Rabs (g z - g w) < eps / 2) by (apply K; auto; apply (near_le (Rmin d e)); [apply Rmin_r|exact N]).
  lra.
Qed.
(** composition with a continuous function of one variable *)
Lemma cob_comp (h : R -> R) f : (forall t, continuous h t) -> cob f -> cob (fun z => h (f z)).
Proof.
  intros C F B eps He. destruct (cob_bounded f B F) as [K [HK PK]].
  destruct (unifcont_1d h (- K - 1) (K + 1)) with (eps := mkposreal eps He) as [d Hd].
  - intros t _. apply C.
  - destruct (F B (Rmin d 1)) as [e [Pe H]]; [apply Rmin_pos; [apply cond_pos|lra]|].
    exists e. split; [exact Pe|]. intros z w Hz Hw N. specialize (H z w Hz Hw N).
    assert (Kz := PK z Hz). assert (Kw := PK w Hw). apply Rabs_le_between in Kz. apply Rabs_le_between in Kw.
    rewrite Rabs_minus_sym. destruct (Rlt_dec (Rabs (h (f w) - h (f z))) eps) as [Y|Y]; [exact Y|exfalso].
    apply (Hd (f z) (f w)); [lra|lra| |exact Y].
    unfold ball; cbn; unfold AbsRing_ball, abs, minus, plus, opp; cbn. rewrite Rabs_minus_sym in H.
    eapply Rlt_le_trans; [exact H|apply Rmin_l].
Qed.
Lemma cob_opp f : cob f -> cob (fun z => - f z).
Proof. intros F. apply (cob_comp Ropp); [|exact F]. intros t. apply (ex_derive_continuous (V := R_NormedModule)); auto_derive; exact I. Qed.
Lemma cob_minus f g : cob f -> cob g -> cob (fun z => f z - g z).
Proof. intros F G. apply cob_plus; [exact F|now apply cob_opp]. Qed.
Lemma cob_ext f g : (forall z, f z = g z) -> cob f -> cob g.
Proof. intros E F B eps He. destruct (F B eps He) as [d [Hd H]]. exists d. split; [exact Hd|]. intros. rewrite <- !E. now apply H. Qed.
Lemma cob_square f : cob f -> cob (fun z => f z * f z).
Proof. intros F. apply (cob_comp (fun t => t * t)); [|exact F]. intros t. apply (ex_derive_continuous (V := R_NormedModule)); auto_derive; exact I. Qed.
Lemma cob_mult f g : cob f -> cob g -> cob (fun z => f z * g z).
Proof.
  intros F G. apply (cob_ext (fun z => / 4 * ((f z + g z) * (f z + g z) - (f z - g z) * (f z - g z)))); [intros z; field|].
  apply (cob_comp (fun t => / 4 * t)).
  - intros t. apply (ex_derive_continuous (V := R_NormedModule)); auto_derive; exact I.
  - apply cob_minus; apply cob_square; [apply cob_plus|apply cob_minus]; assumption.
Qed.
Lemma cob_abs f : cob f -> cob (fun z => Rabs (f z)).
Proof. apply (cob_comp Rabs). intros t. apply (continuous_Rabs t). Qed.
Lemma cob_min f g : cob f -> cob g -> cob (fun z => Rmin (f z) (g z)).
Proof.
  intros F G. apply (cob_ext (fun z => / 2 * (f z + g z - Rabs (f z - g z)))).
  - intros z. unfold Rmin. destruct (Rle_dec (f z) (g z)) as [H|H].
    + rewrite Rabs_left1 by lra. field.
    + rewrite Rabs_pos_eq by lra. field.
  - apply cob_mult; [apply cob_const|]. apply cob_minus; [now apply cob_plus|]. apply cob_abs. now apply cob_minus.
Qed.
Lemma cob_sum {T} (ls : list T) (f : T -> vec -> R) : (forall t, In t ls -> cob (f t)) ->
  cob (fun z => fold_right Rplus 0 (map (fun t => f t z) ls)).
Proof.
  induction ls as [|t ls IH]; intros H; cbn; [apply cob_const|]. apply cob_plus; [apply H; left; reflexivity|].
  apply IH. intros s Hs. apply H. right; exact Hs.
Qed.
End Moves.

(** ** Maps that change volumes by a constant factor *)
Section Volume.
Context {A : Type} (dec : forall a b : A, {a = b} + {a <> b}).
Notation upd := (set_coord dec).
Notation vec := (A -> R).
Notation ints l phi := (fold_right (over dec) phi l).
Variable l : list A.
Hypothesis nodup : NoDup l.
Notation cob := (continuous_coords l).
Record vol (S : vec -> vec) (r : R) : Prop := {
  vol_pos : 0 < r;
  vol_agree : forall z w, agree l z w -> agree l (S z) (S w);
  vol_cob : forall G, cob G -> cob (fun z => G (S z));
  vol_supp : forall phi, supp l phi -> uc l phi -> supp l (fun z => phi (S z));
  vol_ints : forall phi, supp l phi -> uc l phi -> iterated dec l (fun z => phi (S z)) = / r * iterated dec l phi }.
Lemma vol_uc S r phi : vol S r -> supp l phi -> uc l phi -> uc l (fun z => phi (S z)).
Proof. intros V H U. apply cob_supp_uc; [apply (vol_cob _ _ V), uc_cob, U|now apply (vol_supp _ _ V)]. Qed.
Lemma vol_id : vol (fun z => z) 1.
Proof. split; auto; [lra|]. intros. rewrite Rinv_1, Rmult_1_l. reflexivity. Qed.
Lemma vol_comp S r S' r' : vol S r -> vol S' r' -> vol (fun z => S (S' z)) (r * r').
Proof.
  intros V V'. assert (P := vol_pos _ _ V). assert (P' := vol_pos _ _ V'). split.
  - apply Rmult_lt_0_compat; assumption.
  - intros z w H. apply (vol_agree _ _ V), (vol_agree _ _ V'), H.
  - intros G HG. apply (vol_cob _ _ V' (fun z => G (S z))), (vol_cob _ _ V), HG.
  - intros phi H U. apply (vol_supp _ _ V' (fun z => phi (S z))); [now apply (vol_supp _ _ V)|now apply (vol_uc S r)].
  - intros phi H U. rewrite (vol_ints _ _ V' (fun z => phi (S z))); [|now apply (vol_supp _ _ V)|now apply (vol_uc S r)].
    rewrite (vol_ints _ _ V phi H U). field. lra.
Qed.
Lemma vol_ext S S' r : (forall z, agree l (S z) (S' z)) -> vol S r -> vol S' r.
Proof.
  intros E V. split.
  - apply (vol_pos _ _ V).
  - intros z w H. eapply agree_trans; [apply agree_sym, E|]. eapply agree_trans; [|apply E]. now apply (vol_agree _ _ V).
  - intros G HG. apply (cob_ext l (fun z => G (S z))); [|now apply (vol_cob _ _ V)]. intros z. now apply (cob_agree l).
  - intros phi H U. replace (fun z => phi (S' z)) with (fun z => phi (S z)).
    + now apply (vol_supp _ _ V).
    + apply functional_extensionality. intros z. apply (uc_agree l phi); [exact U|apply E].
  - intros phi H U. replace (fun z => phi (S' z)) with (fun z => phi (S z)).
    + now apply (vol_ints _ _ V).
    + apply functional_extensionality. intros z. apply (uc_agree l phi); [exact U|apply E].
Qed.
(** coordinate i becomes a times itself plus a function of the other coordinates *)
Definition elem (i : A) (a : R) (c : vec -> R) (z : vec) : vec := upd z i (a * z i + c z).
Lemma vol_elem i a c : In i l -> a <> 0 -> cob c -> (forall z t, c (upd z i t) = c z) -> vol (elem i a c) (Rabs a).
Proof.
  intros Hi Ha Cc Ic.
  assert (Pa : 0 < Rabs a) by (now apply Rabs_pos_lt).
  assert (Cob : forall G, cob G -> cob (fun z => G (elem i a c z))).
  { intros G HG B eps He. destruct (cob_bounded l c B Cc) as [K [HK PK]].
    set (B' := Rmax B (Rabs a * B + K)). destruct (HG B' eps He) as [d [Hd H]].
    destruct (Cc B (d / 2)) as [e [Pe Hc]]; [lra|].
    set (d' := Rmin d (Rmin e (d / (2 * (Rabs a + 1))))). exists d'. split.
    { unfold d'. repeat apply Rmin_pos; try assumption. apply Rdiv_lt_0_compat; lra. }
    assert (Bx : forall z, in_box l B z -> in_box l B' (elem i a c z)).
    { intros z Hz j Hj. unfold elem, set_coord. destruct (dec j i) as [->|Nj].
      - eapply Rle_trans; [|apply Rmax_r]. eapply Rle_trans; [apply Rabs_triang|]. rewrite Rabs_mult. apply Rplus_le_compat; [|apply PK, Hz].
        apply Rmult_le_compat_l; [lra|apply Hz, Hi].
      - eapply Rle_trans; [apply Hz, Hj|apply Rmax_l]. }
    intros z w Hz Hw N. apply H; [apply Bx, Hz|apply Bx, Hw|]. intros j Hj. unfold elem, set_coord. destruct (dec j i) as [->|Nj].
    - replace (a * z i + c z - (a * w i + c w)) with (a * (z i - w i) + (c z - c w)) by ring.
      eapply Rle_lt_trans; [apply Rabs_triang|]. rewrite Rabs_mult.
      assert (H1 : Rabs (c z - c w) < d / 2).
      { apply Hc; auto. apply (near_le l d'); [|exact N]. unfold d'. eapply Rle_trans; [apply Rmin_r|apply Rmin_l]. }
      assert (H2 : Rabs (z i - w i) < d / (2 * (Rabs a + 1))).
      { eapply Rlt_le_trans; [apply N, Hi|]. unfold d'. eapply Rle_trans; [apply Rmin_r|apply Rmin_r]. }
      assert (H3 : Rabs a * Rabs (z i - w i) <= Rabs a * (d / (2 * (Rabs a + 1)))) by (apply Rmult_le_compat_l; lra).
      assert (H4 : Rabs a * (d / (2 * (Rabs a + 1))) <= d / 2).
      { replace (Rabs a * (d / (2 * (Rabs a + 1)))) with (d / 2 * (Rabs a / (Rabs a + 1))) by (field; lra).
        rewrite <- (Rmult_1_r (d / 2)) at 2. apply Rmult_le_compat_l; [lra|]. apply Rmult_le_reg_r with (Rabs a + 1); [lra|].
        unfold Rdiv. rewrite Rmult_assoc, Rinv_l; lra. }
      lra.
    - eapply Rlt_le_trans; [apply N, Hj|]. unfold d'. apply Rmin_l. }
  assert (Sup : forall phi, supp l phi -> supp l (fun z => phi (elem i a c z))).
  { intros phi Hs. destruct (supp_pos _ _ Hs) as [B [HB Z]]. destruct (cob_bounded l c B Cc) as [K [HK PK]].
    exists (Rmax B ((B + K) / Rabs a)). intros z j Hj L.
    destruct (in_box_dec (filter (fun k => if dec k i then false else true) l) B z) as [Hb|[k [Hk Lk]]].
    - destruct (dec j i) as [->|Nj].
      + apply (Z _ i Hi). unfold elem. rewrite upd_same.
        assert (Kc : Rabs (c z) <= K).
        { rewrite <- (Ic z 0). apply PK. intros k Hk. unfold set_coord. destruct (dec k i) as [->|Nk]; [rewrite Rabs_R0; exact HB|].
          apply Hb. apply filter_In. split; [exact Hk|]. destruct (dec k i); [contradiction|reflexivity]. }
        assert (L1 : (B + K) / Rabs a < Rabs (z i)) by (eapply Rle_lt_trans; [apply Rmax_r|exact L]).
        apply (Rmult_lt_compat_l (Rabs a)) in L1; [|exact Pa]. replace (Rabs a * ((B + K) / Rabs a)) with (B + K) in L1 by (field; lra).
        rewrite <- Rabs_mult in L1.
        assert (T := Rabs_triang (a * z i + c z) (- c z)). rewrite Rabs_Ropp in T.
        replace (a * z i + c z + - c z) with (a * z i) in T by ring. lra.
      + exfalso. assert (Rabs (z j) <= B); [|assert (M := Rmax_l B ((B + K) / Rabs a)); lra].
        apply Hb. apply filter_In. split; [exact Hj|]. destruct (dec j i); [contradiction|reflexivity].
    - apply filter_In in Hk. destruct Hk as [Hk Nk]. apply (Z _ k Hk). unfold elem. rewrite upd_other; [exact Lk|].
      intros ->. destruct (dec i i); [discriminate|congruence]. }
  split.
  - exact Pa.
  - intros z w H j Hj. unfold elem, set_coord. destruct (dec j i) as [->|Nj]; [|now apply H].
    rewrite (H i Hi), (cob_agree l c z w Cc H). reflexivity.
  - exact Cob.
  - intros phi Hs _. now apply Sup.
  - intros phi Hs U.
    assert (S' := Sup phi Hs). assert (U' : uc l (fun z => phi (elem i a c z))) by (apply cob_supp_uc; [apply Cob, uc_cob, U|exact S']).
    destruct (in_split _ _ Hi) as [l1 [l2 El]]. unfold iterated. 
    assert (O : over dec i (fun z => phi (elem i a c z)) = fun z => / Rabs a * over dec i phi z).
    { apply functional_extensionality. intros z. destruct (supp_pos _ _ Hs) as [B [HB Z]].
      rewrite (over_RInt dec l i phi B) by (auto; intros v Hv; now apply (Z v i)).
      unfold over. rewrite <- (line_affine (fun t => phi (upd z i t)) B a (c z)); auto.
      - f_equal. apply functional_extensionality. intros t. unfold elem. rewrite upd_same, Ic, upd_upd. reflexivity.
      - apply (line_continuous dec l). exact U.
      - intros t Ht. apply (Z _ i Hi). now rewrite upd_same. }
    rewrite El in nodup, Hs, S' |- *.
    rewrite (ints_first dec l i l1 l2 phi U Hs nodup), (ints_first dec l i l1 l2 _ U' S' nodup).
    rewrite O. rewrite <- !fold_right_app.
    assert (Nd : NoDup (i :: l1 ++ l2)).
    { apply NoDup_remove in nodup. constructor; tauto. }
    assert (Hs' : supp (i :: l1 ++ l2) phi).
    { apply (supp_incl (l1 ++ i :: l2)); [|exact Hs]. intros k [<-|Hk]; apply in_or_app; [right; left; reflexivity|].
      apply in_app_or in Hk. destruct Hk; [left|right; right]; assumption. }
    rewrite (ints_scal dec l).
    + reflexivity.
    + apply (over_uc dec l); [exact U|]. apply (supp_incl (i :: l1 ++ l2)); [intros k [<-|[]]; left; reflexivity|exact Hs'].
    + apply (over_supp dec l); [exact U|exact Hs'|]. inversion Nd; assumption.
    + inversion Nd; assumption.
Qed.
Definition bivol (S : vec -> vec) (r : R) : Prop := vol S r /\ exists S', vol S' (/ r)
  /\ forall z, agree l (S (S' z)) z /\ agree l (S' (S z)) z.
Lemma bivol_id : bivol (fun z => z) 1.
Proof. split; [apply vol_id|]. exists (fun z => z). rewrite Rinv_1. split; [apply vol_id|]. split; intros i _; reflexivity. Qed.
Lemma bivol_comp S r S' r' : bivol S r -> bivol S' r' -> bivol (fun z => S (S' z)) (r * r').
Proof.
  intros [V [W [VW HW]]] [V' [W' [VW' HW']]]. split; [now apply vol_comp|].
  exists (fun z => W' (W z)). split.
  - replace (/ (r * r')) with (/ r' * / r); [now apply vol_comp|]. assert (P := vol_pos _ _ V). assert (P' := vol_pos _ _ V'). field. lra.
  - intros z. split.
    + eapply agree_trans; [|exact (proj1 (HW z))]. apply (vol_agree _ _ V), (proj1 (HW' (W z))).
    + eapply agree_trans; [|exact (proj2 (HW' z))]. apply (vol_agree _ _ VW'), (proj2 (HW (S' z))).
Qed.
Lemma bivol_ext S S' r : (forall z, agree l (S z) (S' z)) -> bivol S r -> bivol S' r.
Proof.
  intros E [V [W [VW HW]]]. split; [now apply (vol_ext S)|]. exists W. split; [exact VW|]. intros z. split.
  - eapply agree_trans; [apply agree_sym, E|]. exact (proj1 (HW z)).
  - eapply agree_trans; [|exact (proj2 (HW z))]. apply (vol_agree _ _ VW). apply agree_sym, E.
Qed.
Lemma bivol_elem i a c : In i l -> a <> 0 -> cob c -> (forall z t, c (upd z i t) = c z) -> bivol (elem i a c) (Rabs a).
Proof.
  intros Hi Ha Cc Ic. split; [now apply vol_elem|]. exists (elem i (/ a) (fun z => - / a * c z)). split.
  - rewrite <- Rabs_inv. apply vol_elem; auto.
    + now apply Rinv_neq_0_compat.
    + apply cob_mult; [apply cob_const|exact Cc].
    + intros z t. now rewrite Ic.
  - intros z. split; intros j Hj; unfold elem.
    + destruct (dec j i) as [->|N]; [|now rewrite !upd_other by exact N]. rewrite !upd_same, Ic. field. exact Ha.
    + destruct (dec j i) as [->|N]; [|now rewrite !upd_other by exact N]. rewrite !upd_same, Ic. field. exact Ha.
Qed.
(** several coordinates at once, moved by functions of the others *)
Definition block (l' : list A) (a : R) (c : A -> vec -> R) (z : vec) : vec :=
  fun j => if in_dec dec j l' then a * z j + c j z else z j.
Lemma bivol_block l' a c : NoDup l' -> incl l' l -> a <> 0 -> (forall i, In i l' -> cob (c i)) ->
  (forall i j z t, In i l' -> In j l' -> c i (upd z j t) = c i z) -> bivol (block l' a c) (Rabs a ^ length l').
Proof.
  intros N I Ha Cc Ic. induction l' as [|i l' IH].
  - apply (bivol_ext (fun z => z)); [|apply bivol_id]. intros z j _. reflexivity.
  - apply (bivol_ext (fun z => elem i a (c i) (block l' a c z))).
    + inversion N as [|? ? N1 N2]; subst.
      assert (E : forall z, c i (block l' a c z) = c i z).
      { (* the block moves coordinates on which c i does not depend *)
        intros z. assert (G : forall m, incl m l' -> c i (fun j => if in_dec dec j m then a * z j + c j z else z j) = c i z).
        { induction m as [|k m IHm]; intros Im.
          - f_equal.
          - rewrite <- (IHm ltac:(intros x Hx; apply Im; right; exact Hx)).
            rewrite <- (Ic i k (fun j => if in_dec dec j m then a * z j + c j z else z j) (a * z k + c k z)).
            + f_equal. apply functional_extensionality. intros j. unfold set_coord. destruct (dec j k) as [->|Nj].
              * destruct (in_dec dec k (k :: m)) as [_|Q]; [reflexivity|]. exfalso. apply Q. left; reflexivity.
              * destruct (in_dec dec j (k :: m)) as [[Q|Q]|Q], (in_dec dec j m) as [Q'|Q']; try reflexivity; try contradiction; try (now subst).
                exfalso. apply Q. right; exact Q'.
            + left; reflexivity.
            + right. apply Im. left; reflexivity. }
        apply (G l'). apply incl_refl. }
      intros z j Hj. unfold elem. rewrite E. unfold set_coord, block. destruct (dec j i) as [->|Nj].
      * destruct (in_dec dec i (i :: l')) as [_|Q]; [|exfalso; apply Q; left; reflexivity].
        destruct (in_dec dec i l') as [Q|Q]; [contradiction|reflexivity].
      * destruct (in_dec dec j (i :: l')) as [[Q|Q]|Q], (in_dec dec j l') as [Q'|Q']; try reflexivity; try contradiction; try (now subst).
        exfalso. apply Q. right; exact Q'.
    + cbn [length pow]. inversion N as [|? ? N1 N2]; subst. apply bivol_comp.
      * apply bivol_elem; auto.
        -- apply I. left; reflexivity.
        -- apply Cc. left; reflexivity.
        -- intros z t. apply Ic; left; reflexivity.
      * apply IH; auto.
        -- intros x Hx. apply I. right; exact Hx.
        -- intros j Hj. apply Cc. right; exact Hj.
        -- intros j k z t Hj Hk. apply Ic; right; assumption.
Qed.

(** *** The integral of non-negative continuous functions *)
Definition below (G : vec -> R) (r : R) : Prop :=
  exists phi, box_function l phi /\ (forall z, 0 <= phi z <= G z) /\ r = iterated dec l phi.
Lemma integral_lub G : is_lub_Rbar (below G) (integral dec l G).
Proof. apply Lub_Rbar_correct. Qed.
Lemma iterated_zero : iterated dec l (fun _ => 0) = 0.
Proof.
  unfold iterated. replace (fun _ : vec => 0) with (fun z : vec => 0 * 0) at 1 by (apply functional_extensionality; intros; ring).
  rewrite (ints_scal dec l l 0 (fun _ => 0)).
  - ring.
  - intros eps He. exists 1. split; [lra|]. intros. rewrite Rminus_eq_0, Rabs_R0. exact He.
  - exists 0. reflexivity.
  - exact nodup.
Qed.
Lemma below_zero G : (forall z, 0 <= G z) -> below G 0.
Proof.
  intros P. exists (fun _ => 0). split; [|split].
  - apply box_function_iff. split; [exists 0; reflexivity|]. intros eps He. exists 1. split; [lra|]. intros. rewrite Rminus_eq_0, Rabs_R0. exact He.
  - intros z. split; [lra|apply P].
  - symmetry. apply iterated_zero.
Qed.
Lemma integral_nonneg G : (forall z, 0 <= G z) -> Rbar_le 0 (integral dec l G).
Proof. intros P. apply (integral_lub G). now apply below_zero. Qed.
Lemma integral_ext G G' : (forall z, G z = G' z) -> integral dec l G = integral dec l G'.
Proof. intros E. f_equal. now apply functional_extensionality. Qed.
Lemma integral_vol_le S r G : bivol S r -> (forall z, 0 <= G z) -> cob G ->
  forall x, below (fun z => G (S z)) x -> below G (r * x).
Proof.
  intros [V [W [VW HW]]] P C x [phi [T [L E]]]. apply box_function_iff in T. destruct T as [Hs U].
  exists (fun z => phi (W z)). split; [|split].
  - apply box_function_iff. split; [now apply (vol_supp _ _ VW)|now apply (vol_uc W (/ r))].
  - intros z. specialize (L (W z)). rewrite (cob_agree l G (S (W z)) z C) in L; [exact L|apply HW].
  - rewrite (vol_ints _ _ VW phi Hs U), Rinv_inv, E. reflexivity.
Qed.
Lemma integral_vol_ge S r G : bivol S r -> (forall z, 0 <= G z) -> 
  forall x, below G x -> below (fun z => G (S z)) (/ r * x).
Proof.
  intros [V _] P x [phi [T [L E]]]. apply box_function_iff in T. destruct T as [Hs U].
  exists (fun z => phi (S z)). split; [|split].
  - apply box_function_iff. split; [now apply (vol_supp _ _ V)|now apply (vol_uc S r)].
  - intros z. apply L.
  - rewrite (vol_ints _ _ V phi Hs U), E. reflexivity.
Qed.
Lemma integral_vol S r G : bivol S r -> (forall z, 0 <= G z) -> cob G ->
  integral dec l (fun z => G (S z)) = Rbar_mult (/ r) (integral dec l G).
Proof.
  intros B P C. assert (Pr : 0 < r) by (destruct B as [V _]; apply (vol_pos _ _ V)).
  assert (Pi : 0 < / r) by (now apply Rinv_0_lt_compat).
  apply is_lub_Rbar_unique. split.
  - intros x Hx. assert (Q := integral_vol_le S r G B P C x Hx). apply (integral_lub G) in Q.
    destruct (integral dec l G) as [v| |]; cbn in Q |- *.
    + replace x with (/ r * (r * x)) by (field; lra). apply Rmult_le_compat_l; lra.
    + destruct (Rle_dec 0 (/ r)) as [H|H]; [|lra]. destruct (Rle_lt_or_eq_dec 0 (/ r) H); [exact I|lra].
    + contradiction.
  - intros b Hb.
    assert (Ub : is_ub_Rbar (below G) (Rbar_mult r b)).
    { intros x Hx. assert (Q := Hb _ (integral_vol_ge S r G B P x Hx)). destruct b as [v| |]; cbn in Q |- *.
      - replace x with (r * (/ r * x)) by (field; lra). apply Rmult_le_compat_l; lra.
      - destruct (Rle_dec 0 r) as [H|H]; [|lra]. destruct (Rle_lt_or_eq_dec 0 r H); [exact I|lra].
      - contradiction. }
    apply (proj2 (integral_lub G)) in Ub. assert (NN := integral_nonneg G P).
    destruct (integral dec l G) as [v| |]; [| |contradiction].
    + destruct b as [b| |]; cbn in Ub |- *; [|exact I|].
      * apply Rmult_le_reg_l with r; [exact Pr|]. replace (r * (/ r * v)) with v by (field; lra). exact Ub.
      * destruct (Rle_dec 0 r) as [H|H]; [|lra]. destruct (Rle_lt_or_eq_dec 0 r H); [|lra]. exact Ub.
    + destruct b as [b| |]; cbn in Ub |- *.
      * contradiction.
      * destruct (Rle_dec 0 (/ r)) as [H|H]; [|lra]. destruct (Rle_lt_or_eq_dec 0 (/ r) H); [exact I|lra].
      * destruct (Rle_dec 0 r) as [H|H]; [|lra]. destruct (Rle_lt_or_eq_dec 0 r H); [|lra]. contradiction.
Qed.
Lemma integral_vol1 S G : bivol S 1 -> (forall z, 0 <= G z) -> cob G -> integral dec l (fun z => G (S z)) = integral dec l G.
Proof.
  intros B P C. rewrite (integral_vol S 1 G B P C). rewrite Rinv_1.
  assert (NN := integral_nonneg G P). destruct (integral dec l G) as [v| |]; cbn.
  - f_equal. ring.
  - destruct (Rle_dec 0 1) as [H|H]; [|lra]. destruct (Rle_lt_or_eq_dec 0 1 H); [reflexivity|lra].
  - contradiction.
Qed.
Lemma box_plus f g : box_function l f -> box_function l g -> box_function l (fun z => f z + g z).
Proof. rewrite !box_function_iff. intros [A1 A2] [B1 B2]. split; [now apply supp_plus|now apply uc_plus]. Qed.
Lemma iterated_plus f g : box_function l f -> box_function l g ->
  iterated dec l (fun z => f z + g z) = iterated dec l f + iterated dec l g.
Proof. rewrite !box_function_iff. intros [A1 A2] [B1 B2]. unfold iterated. now rewrite (ints_plus dec l l f g). Qed.
Lemma integral_plus G G' : (forall z, 0 <= G z) -> (forall z, 0 <= G' z) -> cob G -> cob G' ->
  integral dec l (fun z => G z + G' z) = Rbar_plus (integral dec l G) (integral dec l G').
Proof.
  intros P P' C C'. assert (N := integral_nonneg G P). assert (N' := integral_nonneg G' P').
  apply is_lub_Rbar_unique. split.
  - intros x [phi [T [L E]]].
    assert (T1 : box_function l (fun z => Rmin (phi z) (G z))).
    { rewrite box_function_iff in *. destruct T as [Hs U].
      assert (S1 : supp l (fun z => Rmin (phi z) (G z))).
      { destruct Hs as [B H]. exists B. intros z i Hi K. rewrite (H z i Hi K). apply Rmin_left, P. }
      split; [exact S1|]. apply cob_supp_uc; [|exact S1]. apply cob_min; [apply uc_cob, U|exact C]. }
    assert (T2 : box_function l (fun z => phi z - Rmin (phi z) (G z))).
    { rewrite box_function_iff in *. destruct T as [Hs U], T1 as [S1 U1]. split.
      - replace (fun z => phi z - Rmin (phi z) (G z)) with (fun z => phi z + - 1 * Rmin (phi z) (G z))
          by (apply functional_extensionality; intros; ring).
        apply supp_plus; [exact Hs|apply supp_scal, S1].
      - replace (fun z => phi z - Rmin (phi z) (G z)) with (fun z => phi z + - 1 * Rmin (phi z) (G z))
          by (apply functional_extensionality; intros; ring).
        apply uc_plus; [exact U|apply uc_scal, U1]. }
    assert (Ex : x = iterated dec l (fun z => Rmin (phi z) (G z)) + iterated dec l (fun z => phi z - Rmin (phi z) (G z))).
    { rewrite <- iterated_plus by assumption. rewrite E. f_equal. apply functional_extensionality. intros z. ring. }
    rewrite Ex. change (Rbar_le (Rbar_plus (Finite (iterated dec l (fun z => Rmin (phi z) (G z)))) (Finite (iterated dec l (fun z => phi z - Rmin (phi z) (G z)))))
      (Rbar_plus (integral dec l G) (integral dec l G'))).
    apply Rbar_plus_le_compat.
    + apply (integral_lub G). eexists. split; [exact T1|]. split; [|reflexivity]. intros z. specialize (L z). specialize (P z).
      split; [apply Rmin_glb; lra|apply Rmin_r].
    + apply (integral_lub G'). eexists. split; [exact T2|]. split; [|reflexivity]. intros z. specialize (L z). specialize (P' z).
      unfold Rmin. destruct (Rle_dec (phi z) (G z)); lra.
  - intros b Hb.
    assert (K : forall x y, below G x -> below G' y -> Rbar_le (Finite (x + y)) b).
    { intros x y [phi [T [L E]]] [psi [T' [L' E']]]. apply Hb. exists (fun z => phi z + psi z). split; [now apply box_plus|]. split.
      - intros z. specialize (L z). specialize (L' z). lra.
      - rewrite iterated_plus by assumption. now rewrite E, E'. }
    destruct b as [b| |]; [| destruct (Rbar_plus _ _); exact I | exfalso; apply (K 0 0); now apply below_zero].
    assert (Kx : forall x, below G x -> Rbar_le (integral dec l G') (Finite (b - x))).
    { intros x Hx. apply (integral_lub G'). intros y Hy. specialize (K x y Hx Hy). cbn in *. lra. }
    assert (F' : is_finite (integral dec l G')).
    { assert (K0 := Kx 0 (below_zero G P)). destruct (integral dec l G'); cbn in *; [reflexivity|contradiction|contradiction]. }
    rewrite <- F' in *. 
    assert (Ub : Rbar_le (integral dec l G) (Finite (b - real (integral dec l G')))).
    { apply (integral_lub G). intros x Hx. specialize (Kx x Hx). cbn in *. lra. }
    destruct (integral dec l G) as [v| |]; cbn in *; [lra|contradiction|contradiction].
Qed.
End Volume.

(** ** The integral of a box function is its iterated integral *)
Section Meaning.
Context {A : Type} (dec : forall a b : A, {a = b} + {a <> b}).
Notation vec := (A -> R).
Notation ints l phi := (fold_right (over dec) phi l).
Lemma ints_le full l (f g : vec -> R) : uc full f -> uc full g -> supp l f -> supp l g -> NoDup l ->
  (forall z, f z <= g z) -> forall z, ints l f z <= ints l g z.
Proof.
  induction l as [|i l IH]; intros F G Sf Sg N H; [exact H|]. cbn [fold_right]. intros z.
  assert (IH' : forall z, ints l f z <= ints l g z).
  { apply IH; auto; [| |inversion N; assumption]; [apply (supp_incl (i :: l)); [intros k Hk; right; exact Hk|exact Sf]|].
    apply (supp_incl (i :: l)); [intros k Hk; right; exact Hk|exact Sg]. }
  destruct (ints_class dec full l [i] f F) as [F' Sf']; [apply supp_app_r; assumption|apply NoDup_app_r; assumption|].
  destruct (ints_class dec full l [i] g G) as [G' Sg']; [apply supp_app_r; assumption|apply NoDup_app_r; assumption|].
  destruct (supp_pos _ _ Sf') as [B [HB Zf]]. destruct (supp_pos _ _ Sg') as [C [HC Zg]].
  rewrite (over_RInt dec full i (ints l f) (Rmax B C)), (over_RInt dec full i (ints l g) (Rmax B C)); auto.
  - apply RInt_le.
    + assert (M := Rmax_l B C). lra.
    + apply ex_RInt_continuous_all, (line_continuous dec full), F'.
    + apply ex_RInt_continuous_all, (line_continuous dec full), G'.
    + intros t _. apply IH'.
  - eapply Rle_trans; [exact HB|apply Rmax_l].
  - intros v Hv. apply (Zg v i); [left; reflexivity|eapply Rle_lt_trans; [apply Rmax_r|exact Hv]].
  - eapply Rle_trans; [exact HB|apply Rmax_l].
  - intros v Hv. apply (Zf v i); [left; reflexivity|eapply Rle_lt_trans; [apply Rmax_l|exact Hv]].
Qed.
Lemma integral_box l phi : NoDup l -> box_function l phi -> (forall z, 0 <= phi z) -> integral dec l phi = Finite (iterated dec l phi).
Proof.
  intros N T P. apply is_lub_Rbar_unique. split.
  - intros x [psi [T' [L E]]]. rewrite E. cbn. unfold iterated. rewrite box_function_iff in T, T'. destruct T, T'.
    apply (ints_le l); auto. intros z. apply L.
  - intros b Hb. apply Hb. exists phi. split; [exact T|]. split; [|reflexivity]. intros z. split; [apply P|lra].
Qed.
End Meaning.
