(** Model of the dependency graph functions of gwkanal/core/guru.py. *)
From Coq Require Import String List Bool.
Import ListNotations.

(** Dict[str, Set[str]]: keys in the iteration order of the dictionary, neighbours in the iteration
    order of the set *)
Definition graph := list (string * list string).

(** graph.get(node, set()) *)
Fixpoint neighbours (g : graph) (n : string) : list string :=
  match g with
  | [] => []
  | (k, ns) :: t => if String.eqb k n then ns else neighbours t n
  end.

Definition mem (x : string) (l : list string) : bool := existsb (String.eqb x) l.

(** _topological_sort, guru.py:24-39.  The recursion is cut off by [fuel] (None); the initial fuel
    is one more than the number of names in the graph.  [result] is kept in the order of the
    Python list, so append is at the end; [visited] is a set.  Python's recursion limit is not
    modelled. *)
Fixpoint topo_dfs (fuel : nat) (g : graph) (node : string) (st : list string * list string)
  : option (list string * list string) :=
  match fuel with
  | O => None
  | S f =>
    let '(visited, result) := st in
    let st := Some (node :: visited, result) in
    let st := fold_left
        (fun st neighbor =>
           match st with
           | None => None
           | Some (visited, result) =>
             if mem neighbor visited then Some (visited, result)
             else topo_dfs f g neighbor (visited, result)
           end) (neighbours g node) st in
    match st with
    | None => None
    | Some (visited, result) => Some (visited, result ++ [node])
    end
  end.

Definition fuel_of (g : graph) : nat :=
  S (length (flat_map (fun p => fst p :: snd p) g)).

Definition topological_sort (g : graph) : option (list string) :=
  let st := fold_left
      (fun st (p : string * list string) =>
         match st with
         | None => None
         | Some (visited, result) =>
           if mem (fst p) visited then Some (visited, result)
           else topo_dfs (fuel_of g) g (fst p) (visited, result)
         end) g (Some ([], [])) in
  match st with None => None | Some (_, result) => Some (rev result) end.

(** _check_cycles, guru.py:42-76.  The state is (visited, rec_stack); [Some (true, _)] is
    [return True]. *)
Definition cstate := (list string * list string)%type.
Fixpoint cyc_dfs (fuel : nat) (g : graph) (node : string) (st : cstate) : option (bool * cstate) :=
  match fuel with
  | O => None
  | S f =>
    let '(visited, rec_stack) := st in
    let fix loop (ns : list string) (st : cstate) : option (bool * cstate) :=
        match ns with
        | [] => Some (false, st)
        | neighbor :: ns' =>
          if negb (mem neighbor (fst st)) then
            match cyc_dfs f g neighbor st with
            | None => None
            | Some (true, st') => Some (true, st')
            | Some (false, st') => loop ns' st'
            end
          else if mem neighbor (snd st) then Some (true, st)
          else loop ns' st
        end in
    match loop (neighbours g node) (node :: visited, node :: rec_stack) with
    | Some (false, (visited, rec_stack)) =>
      Some (false, (visited, remove string_dec node rec_stack))
    | r => r
    end
  end.

Definition check_cycles (g : graph) : option bool :=
  let fix loop (ps : graph) (st : cstate) : option bool :=
      match ps with
      | [] => Some false
      | p :: ps' =>
        if mem (fst p) (fst st) then loop ps' st
        else match cyc_dfs (fuel_of g) g (fst p) st with
             | None => None
             | Some (true, _) => Some true
             | Some (false, st') => loop ps' st'
             end
      end in
  loop g ([], []).
