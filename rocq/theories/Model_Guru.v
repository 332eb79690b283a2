(** Model of the classification of model parameters, gwkanal/core/guru.py. *)
From Coq Require Import String Ascii Reals List Bool Arith.
From Verif Require Import Model_X Model_Joint Model_Graph.
Import ListNotations.
Open Scope nat_scope.

(** ** Python dictionaries with string keys: association lists in insertion order *)
Fixpoint dget {A} (d : list (string * A)) (k : string) : option A :=
  match d with
  | [] => None
  | (k', a) :: t => if String.eqb k' k then Some a else dget t k
  end.
Definition din {A} (d : list (string * A)) (k : string) : bool :=
  match dget d k with Some _ => true | None => false end.
Fixpoint dset {A} (d : list (string * A)) (k : string) (a : A) : list (string * A) :=
  match d with
  | [] => [(k, a)]
  | (k', a') :: t => if String.eqb k' k then (k', a) :: t else (k', a') :: dset t k a
  end.
(** d |= e *)
Definition dmerge {A} (d e : list (string * A)) : list (string * A) :=
  fold_left (fun d p => dset d (fst p) (snd p)) e d.

(** sorted(...) on strings *)
Fixpoint insert (x : string) (l : list string) : list string :=
  match l with
  | [] => [x]
  | y :: t => if String.leb x y then x :: y :: t else y :: insert x t
  end.
Definition sorted (l : list string) : list string := fold_right insert [] l.
(** list.index; absent raises *)
Fixpoint index_of (l : list string) (x : string) : option nat :=
  match l with
  | [] => None
  | y :: t => if String.eqb y x then Some 0 else option_map S (index_of t x)
  end.

Fixpoint map_opt {A B} (f : A -> option B) (l : list A) : option (list B) :=
  match l with
  | [] => Some []
  | a :: t => match f a, map_opt f t with Some b, Some r => Some (b :: r) | _, _ => None end
  end.

Section Guru.
Context {K : Type}.

(** a processed prior: the value of one entry of get_processed_priors *)
Inductive pvalue :=
| VNone
| VNum (x : X)
| VDist (d : dist K)
| VLazy (f : list (string * list X) -> dist K) (args : list (string * string))
| VStr (s : string)
| VOther.

(** dependency_graph[dep].add(name) on a defaultdict(set) *)
Definition graph_add (g : graph) (dep name : string) : graph :=
  let s := match dget g dep with Some s => s | None => [] end in
  dset g dep (if mem name s then s else s ++ [name]).

Record pass1 := mkpass1 {
  p_constants : list (string * option X);
  p_variables : list (string * @marginal K);
  p_lazy : list (string * list (string * string));
  p_graph : graph;
  p_roots : list string }.

(** Pass 1, guru.py:125-160 *)
Definition pass1_step (st : option pass1) (p : string * pvalue) : option pass1 :=
  match st with
  | None => None
  | Some (mkpass1 cs vs lz g rs) =>
    let '(name, value) := p in
    match value with
    | VNone => Some (mkpass1 (dset cs name None) vs lz g rs)
    | VDist d => Some (mkpass1 cs (dset vs name (Ready d)) lz g (rs ++ [name]))
    | VLazy f args =>
      Some (mkpass1 cs (dset vs name (Pending f)) (dset lz name args)
                    (fold_left (fun g a => graph_add g (snd a) name) args g) rs)
    | VNum x => Some (mkpass1 (dset cs name (Some x)) vs lz g rs)
    | VStr _ => Some (mkpass1 cs vs lz g rs)
    | VOther => None
    end
  end.

(** Pass 2, guru.py:162-168 *)
Definition pass2_step (variables : list (string * @marginal K))
           (st : list (string * option X) * list (string * string)) (p : string * pvalue)
  : list (string * option X) * list (string * string) :=
  let '(constants, aliases) := st in
  match snd p with
  | VStr value =>
    match dget constants value with
    | Some c => (dset constants (fst p) c, aliases)
    | None => if din variables value then (constants, dset aliases (fst p) value)
              else (constants, aliases)
    end
  | _ => (constants, aliases)
  end.

Record classes := mkclasses {
  k_constants : list (string * option X);
  k_variables : list (string * @marginal K);
  k_aliases : list (string * string);
  k_lazy : list (string * list (string * string));
  k_lazy_order : list string }.

(** _classify_model_parameters, guru.py:79-196.  [iter] is the iteration order of a set. *)
Definition classify (iter : list string -> list string) (params : list (string * pvalue))
  : option classes :=
  match fold_left pass1_step params (Some (mkpass1 [] [] [] [] [])) with
  | None => None
  | Some (mkpass1 cs vs lz g rs) =>
    let '(cs, al) := fold_left (pass2_step vs) params (cs, []) in
    match lz with
    | [] => Some (mkclasses cs vs al lz [])
    | _ =>
      let g := map (fun p => (fst p, iter (snd p))) g in
      match check_cycles g with
      | Some false =>
        match topological_sort g with
        | Some order =>
          Some (mkclasses cs vs al lz (filter (fun v => negb (mem v rs)) order))
        | None => None
        end
      | _ => None
      end
    end
  end.

Record prior := mkprior {
  r_constants : list (string * option X);
  r_sorted : list string;
  r_marginals : list (@marginal K);
  r_deps : dependencies;
  r_order : list nat;
  r_index : list (string * nat) }.

(** Guru.classify_model_parameters, guru.py:263-334, from the processed priors on (reading and
    writing files and the debug log are not modelled), with the checks made by the constructors
    of JointDistribution and LazyJointDistribution (_lazyjointdistribution.py:144-162). *)
Definition classify_model_parameters (iter : list string -> list string)
           (self_constants : list (string * option X)) (params : list (string * pvalue))
  : option prior :=
  match classify iter params with
  | None => None
  | Some (mkclasses cs vs al lz order) =>
    let constants := dmerge cs self_constants in
    let names := sorted (map fst vs) in
    let index := combine names (seq 0 (List.length names)) in
    let index := fold_left (fun idx (p : string * string) =>
                              match idx with
                              | None => None
                              | Some idx =>
                                match dget idx (snd p) with
                                | Some i => Some (dset idx (fst p) i)
                                | None => None
                                end
                              end) al (Some index) in
    match index, map_opt (dget vs) names with
    | None, _ | _, None | _, Some [] => None
    | Some index, Some ms =>
      match order with
      | [] => if forallb (fun m => negb (is_pending m)) ms
              then Some (mkprior constants names ms [] [] index) else None
      | _ =>
        match map_opt (fun p : string * list (string * string) =>
                match index_of names (fst p),
                      map_opt (fun q : string * string =>
                                 option_map (fun j => (fst q, j)) (index_of names (snd q))) (snd p) with
                | Some i, Some dep => Some (i, dep)
                | _, _ => None
                end) lz, map_opt (index_of names) order with
        | Some deps, Some idxs =>
          if Nat.eqb (List.length idxs) (List.length deps)
          then Some (mkprior constants names ms deps idxs index) else None
        | _, _ => None
        end
      end
    end
  end.
End Guru.
Arguments pvalue K : clear implicits.
Arguments prior K : clear implicits.
Arguments classes K : clear implicits.
