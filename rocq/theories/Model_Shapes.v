(** Shapes of the arrays that the distributions return: which batch shape a constructor declares, and of which shape the
    results of log_prob and sample are. Values are not modelled here; None is an error.

    Sources (under gwkokab/models): utils/_doubletruncpowerlaw.py:383-458, mass/_models.py:49-332, mass/_bpls.py:67-98,156-342,
    redshift/_models.py:17-231, spin/_models.py:271-335, utils/_joindistribution.py:106-160, utils/_lazyjointdistribution.py:146-268,
    utils/_scaledmixture.py:49-247. numpyro's promote_shapes and expand, and the shape rules of jax.numpy, are modelled from
    their documentation. *)
From Coq Require Import List Arith Bool.
Import ListNotations.

Definition shp := list nat.

(** lax.broadcast_shapes: dimensions are compared from the last one on *)
Definition dim (x y : nat) : option nat :=
  if x =? 1 then Some y else if y =? 1 then Some x else if x =? y then Some x else None.
Fixpoint rbro (a b : shp) : option shp :=
  match a, b with
  | [], _ => Some b
  | _, [] => Some a
  | x :: a', y :: b' => match dim x y, rbro a' b' with Some d, Some r => Some (d :: r) | _, _ => None end
  end.
Definition bro (a b : option shp) : option shp :=
  match a, b with Some x, Some y => option_map (@rev nat) (rbro (rev x) (rev y)) | _, _ => None end.
(** the result of an elementwise function of arrays of these shapes *)
Definition elementwise (l : list (option shp)) : option shp := fold_right bro (Some []) l.
Definition broadcast_shapes (l : list shp) : option shp := elementwise (map Some l).
(** numpyro.distributions.util.promote_shapes: ones in front until all have the same number of axes *)
Definition promote (l : list shp) : list (option shp) :=
  match broadcast_shapes l with
  | Some c => map (fun s => Some (repeat 1 (length c - length s) ++ s)) l
  | None => []
  end.

Definition shape_eqb (a b : shp) : bool := if list_eq_dec Nat.eq_dec a b then true else false.
(** jnp.stack(arrays, axis=-1) needs arrays of one shape *)
Definition stack_last (l : list (option shp)) : option shp :=
  match l with
  | Some s :: t => if forallb (fun r => match r with Some r => shape_eqb r s | None => false end) t then Some (s ++ [length l]) else None
  | _ => None
  end.
(** shape[:-1]; x[..., i] and jnp.unstack(x, axis=-1) *)
Definition init (v : shp) : option shp := match rev v with [] => None | _ :: r => Some (rev r) end.
Definition unstack (k : nat) (v : shp) : option shp :=
  match rev v with d :: r => if d =? k then Some (rev r) else None | [] => None end.
(** jrd.uniform(key, shape, minval, maxval): the bounds must broadcast to the shape *)
Definition uniform_between (s : shp) (lo hi : option shp) : option shp :=
  match elementwise [Some s; lo; hi] with Some r => if shape_eqb r s then Some s else None | None => None end.
(** jnp.linspace(start, stop, n) *)
Definition linspace (n : nat) (a b : option shp) : option shp := option_map (cons n) (elementwise [a; b]).
(** jnp.trapezoid(y, x) over the last axis: the differences of x times the sums of neighbours of y *)
Definition shorten (s : option shp) : option shp :=
  match s with Some s => match rev s with d :: r => Some (rev r ++ [d - 1]) | [] => None end | None => None end.
Definition trapezoid (y x : option shp) : option shp :=
  match elementwise [shorten x; shorten y] with Some s => init s | None => None end.
(** jnp.interp needs vectors of equal length *)
Definition interp (x xp fp : option shp) : option shp :=
  match xp, fp with Some [n], Some [m] => if n =? m then x else None | _, _ => None end.
Definition size (s : shp) : nat := fold_right Nat.mul 1 s.
(** x.reshape( *s, -1) *)
Definition reshape_last (s : shp) (x : option shp) : option shp :=
  match x with
  | Some x => if size s =? 0 then None else if size x mod size s =? 0 then Some (s ++ [size x / size s]) else None
  | None => None
  end.
(** jnp.concatenate(arrays, axis=-1) *)
Fixpoint concat_last (l : list (option shp)) : option shp :=
  match l with
  | [] => None
  | [x] => match x with Some s => match s with [] => None | _ => Some s end | None => None end
  | x :: t =>
    match x, concat_last t with
    | Some a, Some b =>
      match rev a, rev b with
      | n :: ra, m :: rb => if shape_eqb ra rb then Some (rev ra ++ [n + m]) else None
      | _, _ => None
      end
    | _, _ => None
    end
  end.

(** a distribution: batch_shape, event_shape, and the shapes of log_prob(value) and sample(key, sample_shape) *)
Record dist := Dist { batch : shp; event : shp; log_prob : shp -> option shp; sample : shp -> option shp }.
(** Distribution.sample of a class that does not define it *)
Definition no_sample : shp -> option shp := fun _ => None.

(** DoublyTruncatedPowerLaw, _doubletruncpowerlaw.py:383-458 *)
Definition doubly_truncated (alpha low high : shp) : option dist :=
  match broadcast_shapes [alpha; low; high], promote [alpha; low; high] with
  | Some b, [a; l; h] =>
    Some (Dist b [] (fun v => elementwise [Some v; a; l; h]) (fun ss => elementwise [Some (ss ++ b); a; l; h]))
  | _, _ => None
  end.
(** PowerlawPrimaryMassRatio, mass/_models.py:49-110 *)
Definition powerlaw_primary_mass_ratio (alpha beta mmin mmax : shp) : option dist :=
  match broadcast_shapes [alpha; beta; mmin; mmax], promote [alpha; beta; mmin; mmax] with
  | Some b, [a; be; lo; hi] =>
    Some (Dist b [2]
      (fun v => match unstack 2 v with
                | Some s =>
                  let m1 := elementwise [Some s; a; lo; hi] in
                  let q := elementwise [elementwise [Some s; lo]; elementwise [Some s; be; elementwise [lo; Some s]; Some []]] in
                  elementwise [m1; q]
                | None => None
                end)
      (fun ss =>
         let m1 := elementwise [Some ss; a; lo; hi] in
         let q := elementwise [Some ss; be; elementwise [lo; m1]; Some []] in
         stack_last [m1; q]))
  | _, _ => None
  end.
(** Wysocki2019MassModel, mass/_models.py:132-189 *)
Definition wysocki (alpha mmin mmax : shp) : option dist :=
  match broadcast_shapes [alpha; mmin; mmax], promote [alpha; mmin; mmax] with
  | Some b, [a; lo; hi] =>
    Some (Dist b [2]
      (fun v => match init v with
                | Some s =>
                  elementwise [elementwise [Some s; a; lo; hi]; elementwise [Some s; lo; elementwise [Some s; lo]]]
                | None => None
                end)
      (fun ss =>
         let m1 := elementwise [Some ss; a; lo; hi] in
         let m2 := uniform_between ss lo m1 in
         stack_last [m1; m2]))
  | _, _ => None
  end.
(** BrokenPowerlaw, mass/_bpls.py:21-52,67-98 *)
Definition broken_powerlaw (alpha1 alpha2 mbreak mmax mmin : shp) : option dist :=
  match broadcast_shapes [alpha1; alpha2; mbreak; mmax; mmin], promote [alpha1; alpha2; mbreak; mmax; mmin] with
  | Some b, [a1; a2; br; hi; lo] =>
    Some (Dist b []
      (fun v =>
         let log_norm := elementwise [elementwise [br; a1; lo; br]; elementwise [br; a2; br; hi]] in
         let slope := elementwise [elementwise [Some v; br]; a1; a2] in
         elementwise [slope; elementwise [br; Some v]; log_norm])
      no_sample)
  | _, _ => None
  end.
(** GWTC4EffectiveSpinSkewNormalModel, spin/_models.py:280-335 *)
Definition skew_normal (loc scale epsilon : shp) : option dist :=
  match broadcast_shapes [loc; scale; epsilon], promote [loc; scale; epsilon] with
  | Some b, [l; s; e] =>
    Some (Dist b []
      (fun v =>
         let scale12 := elementwise [s; e] in
         let norm := elementwise [e; l; scale12] in
         let factor := elementwise [elementwise [Some v; l]; e] in
         let sc := elementwise [s; factor] in
         elementwise [factor; elementwise [Some v; l; sc]; norm])
      no_sample)
  | _, _ => None
  end.

(** _RedshiftModel, redshift/_models.py:17-100, for a function psi of the shape of z *)
Definition redshift_log_prob (psi : option shp -> option shp) (z : option shp) : option shp := elementwise [z; z; psi z].
Definition norm_points : nat := 2500.
Definition sample_points : nat := 100 * 100.
Definition redshift_log_norm (psi : option shp -> option shp) (z_max : option shp) : option shp :=
  let z_grid := linspace norm_points (Some []) z_max in
  trapezoid (redshift_log_prob psi z_grid) z_grid.
Definition redshift_sample (psi : option shp -> option shp) (z_max : option shp) (b ss : shp) : option shp :=
  let z_grid := linspace sample_points (Some []) z_max in
  let pdf := redshift_log_prob psi z_grid in
  let pdf := elementwise [pdf; trapezoid pdf z_grid] in
  interp (Some (ss ++ b)) (elementwise [pdf; z_grid]) z_grid.
Record redshift := Redshift { z_dist : dist; log_norm : option shp }.
(** PowerlawRedshift, redshift/_models.py:128-156 *)
Definition powerlaw_redshift (z_max kappa : shp) : option redshift :=
  match broadcast_shapes [z_max; kappa], promote [z_max; kappa] with
  | Some b, [z; k] =>
    let psi := fun x => elementwise [k; x] in
    Some (Redshift (Dist b [] (fun v => redshift_log_prob psi (Some v)) (redshift_sample psi z b)) (redshift_log_norm psi z))
  | _, _ => None
  end.
(** MadauDickinsonRedshift, redshift/_models.py:186-231; the base class adds the shape of z_max *)
Definition madau_redshift (z_max kappa gamma z_peak : shp) : option redshift :=
  match broadcast_shapes [z_max; kappa; gamma; z_peak], promote [z_max; kappa; gamma; z_peak] with
  | Some b, [z; k; g; p] =>
    let psi := fun x => elementwise [elementwise [k; x]; elementwise [p; g]; elementwise [elementwise [p; g]; elementwise [x; g]]] in
    Some (Redshift (Dist b [] (fun v => redshift_log_prob psi (Some v)) (redshift_sample psi z b)) (redshift_log_norm psi z))
  | _, _ => None
  end.

(** The two mass models with tables, mass/_models.py:226-332 and mass/_bpls.py:156-342: [params] are all parameters, [low]
    and [high] the bounds of the masses among them. jnp.meshgrid(m1s, qs) needs m1s to be a vector. *)
Definition tabulated (params : list shp) (low high : shp) : option dist :=
  match broadcast_shapes (params ++ [low; high]) with
  | Some b =>
    match linspace 1000 (Some b) (Some b) with
    | Some [n] =>
      let every := promote (params ++ [low; high]) in
      let logZ := @Some shp b in
      let Z_q := @Some shp [n] in
      Some (Dist b [2]
        (fun v => match unstack 2 v with
                  | Some s =>
                    let p := elementwise (Some s :: every) in
                    elementwise [elementwise [p; logZ]; elementwise [p; interp (Some s) (Some [n]) Z_q]]
                  | None => None
                  end)
        no_sample)
    | _ => None
    end
  | None => None
  end.

(** JointDistribution, utils/_joindistribution.py:84-160; a marginal is given [width] entries of the last axis *)
Definition width (e : shp) : nat := match e with [] => 1 | n :: _ => n end.
Definition slice (e : shp) : shp := match e with [] => [] | n :: _ => [n] end.
Definition joint (l : list dist) : option dist :=
  match l with
  | [] => None
  | _ =>
    match broadcast_shapes (map batch l) with
    | None => None
    | Some b =>
      let k := fold_right Nat.add 0 (map (fun d => width (event d)) l) in
      Some (Dist b [k]
        (fun v => match unstack k v with
                  | Some s => elementwise (Some s :: map (fun d => log_prob d (s ++ slice (event d))) l)
                  | None => None
                  end)
        (fun ss => concat_last (map (fun d => reshape_last ss (sample d ss)) l)))
    end
  end.

(** LazyJointDistribution, utils/_lazyjointdistribution.py:188-268: the marginals that wait for others are functions of the
    shapes of what they wait for; [order] lists them *)
Inductive marginal := Ready (d : dist) | Waiting (e : shp) (deps : list nat) (f : list shp -> option dist).
Definition m_event (m : marginal) : shp := match m with Ready d => event d | Waiting e _ _ => e end.
Fixpoint all_some {A} (l : list (option A)) : option (list A) :=
  match l with
  | [] => Some []
  | Some a :: t => option_map (cons a) (all_some t)
  | None :: _ => None
  end.
Definition lazy_log_prob (l : list marginal) (s : shp) : option shp :=
  elementwise (Some s :: map (fun m =>
    match m with
    | Ready d => log_prob d (s ++ slice (event d))
    | Waiting e deps f => match f (map (fun _ => s) deps) with Some d => log_prob d (s ++ slice e) | None => None end
    end) l).
(** lines 245-265: the independent ones first, then those of [order] in this order *)
Definition lazy_first (l : list marginal) (ss : shp) : list (option shp) :=
  map (fun m => match m with Ready d => reshape_last ss (sample d ss) | Waiting _ _ _ => Some (ss ++ [1]) end) l.
Fixpoint put (i : nat) (x : option shp) (l : list (option shp)) : list (option shp) :=
  match l, i with
  | [], _ => []
  | _ :: t, 0 => x :: t
  | a :: t, S j => a :: put j x t
  end.
Definition lazy_step (l : list marginal) (ss : shp) (samples : list (option shp)) (i : nat) : list (option shp) :=
  match nth_error l i with
  | Some (Waiting e deps f) =>
    let d := match all_some (map (fun v => nth v samples None) deps) with Some k => f k | None => None end in
    put i (match d with
           | Some d => reshape_last ss (sample d (skipn (length (event d) + 1) ss))
           | None => None
           end) samples
  | _ => samples
  end.
Definition lazy_joint (l : list marginal) (order : list nat) : option dist :=
  match l, order with
  | [], _ => None
  | _, [] => None
  | _, _ =>
    let k := fold_right Nat.add 0 (map (fun m => width (m_event m)) l) in
    Some (Dist [] [k]
      (fun v => match unstack k v with Some s => lazy_log_prob l s | None => None end)
      (fun ss => concat_last (fold_left (lazy_step l ss) order (lazy_first l ss))))
  end.

(** ScaledMixture, utils/_scaledmixture.py:49-108,144-165,197-247; [scales] is the shape of log_scales. Distribution.expand
    is taken from its documentation: it needs a batch shape that broadcasts to the new one, and then draws in the new one. *)
Definition expand_sample (d : dist) (target : shp) : option shp :=
  match elementwise [Some (batch d); Some target] with
  | Some r => if shape_eqb r target then Some (target ++ event d) else None
  | None => None
  end.
Definition scaled_mixture (scales : shp) (l : list dist) : option dist :=
  match l, rev scales with
  | d0 :: rest, n :: outer =>
    if (n =? length l) && forallb (fun d => shape_eqb (event d) (event d0)) rest then
      match broadcast_shapes (map batch l) with
      | None => None
      | Some b =>
        Some (Dist b (event d0)
          (fun v => match elementwise [Some scales; stack_last (map (fun d => log_prob d v) l)] with
                    | Some s => init s
                    | None => None
                    end)
          (fun ss =>
             let target := ss ++ b in
             if forallb (fun d => match expand_sample d target with Some _ => true | None => false end) l
             then match elementwise [Some (rev outer); Some target] with
                  | Some r => if shape_eqb r target then Some (target ++ event d0) else None
                  | None => None
                  end
             else None))
      end
    else None
  | _, _ => None
  end.
