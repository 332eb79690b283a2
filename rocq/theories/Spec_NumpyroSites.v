From Coq Require Import String Reals List Permutation.
From Verif Require Import Model_X Model_Joint Spec_Joint Model_Guru Model_NumpyroSites.
Import ListNotations.
Open Scope nat_scope.

Section S.
Context {K : Type}.

(** the prior density NumPyro accumulates over the declared sites *)
Definition sites_log_density (sites : list (site K)) : X :=
  xsum (map (fun s => log_prob (s_dist s) (s_value s)) sites).

(** the value a site of that name returned *)
Definition site_value (sites : list (site K)) (n : string) (x : list X) : Prop :=
  exists s, In s sites /\ s_name s = n /\ s_value s = x.

(** site [n] comes after site [m] *)
Definition site_after (sites : list (site K)) (m n : string) : Prop :=
  exists a s b t c, sites = a ++ s :: b ++ t :: c /\ s_name s = m /\ s_name t = n.
End S.
