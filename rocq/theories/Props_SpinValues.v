(** Property C69, continued: the densities of the truncated-normal mixtures at every point. *)
From Coq Require Import Reals Lra Lia List.
From Coquelicot Require Import Coquelicot.
From Verif Require Import Model_X Spec_X Proofs_X Spec_Density Proofs_Integral Model_Gauss Proofs_Gauss Model_Spin Proofs_Spin Spec_Hybrid Proofs_Hybrid.
Import ListNotations.
Open Scope R_scope.

(** zeta is the weight of the second component *)
Theorem C69_two_truncated_normals_value : forall high1 loc1 low1 scale1 high2 loc2 low2 scale2 zeta x,
  0 <= zeta <= 1 -> 0 < scale1 -> 0 < scale2 -> low1 < high1 -> low2 < high2 ->
  wexp (two_truncated_normal high1 loc1 low1 scale1 high2 loc2 low2 scale2 zeta x)
  = (1 - zeta) * truncated_normal loc1 scale1 low1 high1 x + zeta * truncated_normal loc2 scale2 low2 high2 x.
Proof.
  intros h1 c1 l1 s1 h2 c2 l2 s2 zeta x Hz H1 H2 L1 L2. unfold two_truncated_normal.
  destruct (tn_spec x c1 s1 l1 h1 H1 L1) as [F1 V1]. destruct (tn_spec x c2 s2 l2 h2 H2 L2) as [F2 V2].
  rewrite (proj2 (mixture_two zeta _ _ Hz F1 F2)), V1, V2. reflexivity.
Qed.
Print Assumptions C69_two_truncated_normals_value.

Lemma independent_product lp f cs : forall xs, length cs = length xs ->
  List.Forall (fun c => forall x, fin_or_ninf (lp c x) /\ wexp (lp c x) = f c x) cs ->
  fin_or_ninf (independent lp cs xs) /\ wexp (independent lp cs xs) = product_at f cs xs.
Proof.
  intros xs L H. destruct (independent_fin lp cs xs) as [A B].
  { eapply Forall_impl; [|exact H]. intros c Hc x. apply Hc. }
  split; [exact A|]. rewrite (B L). clear A B. revert xs L. induction H as [|c cs Hc H IH]; intros [|x xs] L; try discriminate; [reflexivity|].
  cbn [map combine fst snd rprod product_at]. rewrite (proj2 (Hc x)). f_equal. apply IH. now injection L.
Qed.
(** any number of dimensions: zeta is the weight of the Gaussian part, inside and outside of the supports *)
Theorem C69_nd_mixture_value : forall zeta cs xs, 0 <= zeta <= 1 -> length cs = length xs ->
  List.Forall (fun c => 0 < c_scale c /\ c_ilow c < c_ihigh c /\ c_glow c < c_ghigh c) cs ->
  wexp (nd_isotropic_and_truncated zeta cs xs)
  = (1 - zeta) * product_at (fun c => uniform (c_ilow c) (c_ihigh c)) cs xs
    + zeta * product_at (fun c => truncated_normal (c_loc c) (c_scale c) (c_glow c) (c_ghigh c)) cs xs.
Proof.
  intros zeta cs xs Hz L H. unfold nd_isotropic_and_truncated.
  destruct (independent_product coord_uniform (fun c => uniform (c_ilow c) (c_ihigh c)) cs xs L) as [F1 V1].
  { eapply Forall_impl; [|exact H]. intros c Hc x. apply uniform_spec. apply Hc. }
  destruct (independent_product coord_gauss (fun c => truncated_normal (c_loc c) (c_scale c) (c_glow c) (c_ghigh c)) cs xs L) as [F2 V2].
  { eapply Forall_impl; [|exact H]. intros c Hc x. apply tn_spec; apply Hc. }
  rewrite (proj2 (mixture_two zeta _ _ Hz F1 F2)), V1, V2. reflexivity.
Qed.
Print Assumptions C69_nd_mixture_value.
(** the minimum bounds both parts *)
Theorem C69_minimum_tilt_value : forall zeta loc1 loc2 scale1 scale2 min1 min2 t1 t2,
  0 <= zeta <= 1 -> 0 < scale1 -> 0 < scale2 -> min1 < 1 -> min2 < 1 ->
  wexp (minimum_tilt_extended zeta loc1 loc2 scale1 scale2 min1 min2 [t1; t2])
  = (1 - zeta) * (uniform min1 1 t1 * uniform min2 1 t2)
    + zeta * (truncated_normal loc1 scale1 min1 1 t1 * truncated_normal loc2 scale2 min2 1 t2).
Proof.
  intros zeta l1 l2 s1 s2 m1 m2 t1 t2 Hz H1 H2 M1 M2. unfold minimum_tilt_extended. rewrite C69_nd_mixture_value; [|exact Hz|reflexivity|].
  - cbn [product_at c_loc c_scale c_ilow c_ihigh c_glow c_ghigh]. now rewrite !Rmult_1_r.
  - constructor; [|constructor; [|constructor]]; simpl; lra.
Qed.
Print Assumptions C69_minimum_tilt_value.
(** a case where the value is not zero: the isotropic part alone *)
Example C69_values_nonvacuous :
  wexp (minimum_tilt_extended 0 1 1 1 1 0 (-1) [1/2; 1/2]) = 1/2 /\ wexp (minimum_tilt_extended 0 1 1 1 1 0 (-1) [-1/2; 1/2]) = 0.
Proof.
  rewrite !C69_minimum_tilt_value by lra. unfold uniform.
  split; unfold within; repeat (destruct (Rle_dec _ _); try lra).
Qed.
