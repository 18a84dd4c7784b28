(** * GraphValid: the validity check of circuits

    Source: /repo/src/probabilistic_model/probabilistic_circuit/nx/probabilistic_circuit.py, [is_valid] (765-774), together with the
    algorithms of networkx that it calls: [is_directed_acyclic_graph] exhausts [topological_generations] (Kahn's algorithm) and
    [is_weakly_connected] compares the size of one weakly connected component, found by [_plain_bfs], with the number of nodes.

    Simplifications: a dictionary is the list of its entries in order, a set is a list without repetitions; running out of [fuel]
    stands for a loop that does not end, it does not occur (C72). *)
From Coq Require Import List Arith Bool.
From Verif Require Import Num Graph.
Import ListNotations.

Section Valid.
Context {D : Type}.
Implicit Types g : graph D.

Definition in_degree g (v : id) : nat := length (in_edges g v).

(** [indegree_map] and [zero_indegree]. *)
Definition indegrees : Type := list (id * nat).
Definition indegree_map g : indegrees := filter (fun p => 0 <? snd p) (map (fun v => (v, in_degree g v)) (node_ids g)).
Definition zero_indegree g : list id := filter (fun v => in_degree g v =? 0) (node_ids g).

(** [indegree_map[child] -= 1], and whether the entry became zero and was deleted; an entry that is missing raises. *)
Fixpoint decrement (m : indegrees) (child : id) : option (indegrees * bool) :=
  match m with
  | [] => None
  | (v, d) :: m' =>
    if v =? child
    then if d - 1 =? 0 then Some (m', true) else Some ((v, d - 1) :: m', false)
    else match decrement m' child with None => None | Some (m'', b) => Some ((v, d) :: m'', b) end
  end.

Definition visit_child (st : indegrees * list id) (child : id) : option (indegrees * list id) :=
  match decrement (fst st) child with
  | None => None
  | Some (m, b) => Some (m, if b then snd st ++ [child] else snd st)
  end.

(** All generations; the answer is whether no entry is left, otherwise NetworkXUnfeasible is raised and caught by [has_cycle]. *)
Fixpoint generations g (fuel : nat) (m : indegrees) (zero : list id) : option bool :=
  match zero with
  | [] => Some (match m with [] => true | _ => false end)
  | _ :: _ =>
    match fuel with
    | 0 => None
    | S f =>
      match foldM (fun st u => foldM visit_child (subcircuits g u) st) zero (m, []) with
      | None => None
      | Some (m', next) => generations g f m' next
      end
    end
  end.
Definition is_directed_acyclic_graph g : option bool := generations g (S (length (node_ids g))) (indegree_map g) (zero_indegree g).

(** [_plain_bfs]: successors and then predecessors of the units of a level. *)
Fixpoint expand_level g (level : list id) (seen next : list id) : list id * list id :=
  match level with
  | [] => (seen, next)
  | v :: level' => let '(seen', next') := expand_children (subcircuits g v ++ parents g v) seen next in expand_level g level' seen' next'
  end.
Fixpoint plain_bfs g (fuel : nat) (level seen : list id) : option (list id) :=
  match level with
  | [] => Some seen
  | _ :: _ =>
    match fuel with
    | 0 => None
    | S f => let '(seen', next) := expand_level g level seen [] in
             if length seen' =? length (node_ids g) then Some seen' else plain_bfs g f next seen'
    end
  end.

(** [is_weakly_connected]; the graph without nodes raises. *)
Definition is_weakly_connected g : option bool :=
  match node_ids g with
  | [] => None
  | s :: _ => match plain_bfs g (S (length (node_ids g))) [s] [s] with
              | None => None
              | Some seen => Some (length seen =? length (node_ids g))
              end
  end.

(** [is_valid] (PC.py:765-774). *)
Definition is_valid g : option bool :=
  match is_directed_acyclic_graph g with
  | None => None
  | Some false => Some false
  | Some true => is_weakly_connected g
  end.
End Valid.
