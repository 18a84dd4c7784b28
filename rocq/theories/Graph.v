(** * Graph: the part of networkx.DiGraph that ProbabilisticCircuit uses

    src/probabilistic_model/probabilistic_circuit/nx/probabilistic_circuit.py (abbreviated PC.py below),
    class ProbabilisticCircuit (lines 730-1290), which inherits from nx.DiGraph.

    A circuit is an insertion-ordered list of units and an insertion-ordered list of edges.  networkx keeps one
    insertion-ordered adjacency dictionary per node for successors and one for predecessors; filtering the global list by
    source (resp. target) yields exactly these orders, because edges are appended at the end of both dictionaries and
    re-adding an existing edge keeps its place in both.
    Units are identified by a number (Python object identity). *)
From Coq Require Import List Arith Bool Lia.
From Verif Require Import Num.
Import ListNotations.

Definition id := nat.

(** Monadic map; [None] is a raised exception. *)
Definition mapM {A B} (f : A -> option B) : list A -> option (list B) :=
  fix go (l : list A) : option (list B) :=
    match l with
    | [] => Some []
    | a :: l' => match f a with
                 | None => None
                 | Some b => match go l' with None => None | Some bs => Some (b :: bs) end
                 end
    end.

(** Sequential execution of a list of state transformers that may raise. *)
Fixpoint foldM {A S} (f : S -> A -> option S) (l : list A) (s : S) : option S :=
  match l with
  | [] => Some s
  | a :: l' => match f s a with None => None | Some s' => foldM f l' s' end
  end.

(** The three classes of units: LeafUnit (PC.py:201), SumUnit (PC.py:340), ProductUnit (PC.py:633). *)
Inductive ukind (D : Type) : Type :=
| ULeaf (d : D)
| USum
| UProd.
Arguments ULeaf {D} d.
Arguments USum {D}.
Arguments UProd {D}.

(** An edge with its optional ["log_weight"] attribute (PC.py:401 adds it, PC.py:681 does not). *)
Record edge : Type := mkEdge { e_src : id; e_dst : id; e_lw : option num }.

Record graph (D : Type) : Type := mkGraph { g_nodes : list (id * ukind D); g_edges : list edge }.
Arguments mkGraph {D} g_nodes g_edges.
Arguments g_nodes {D} g.
Arguments g_edges {D} g.

Section Ops.
Context {D : Type}.
Implicit Types g : graph D.

Definition node_ids g : list id := map fst (g_nodes g).

Definition has_node g (u : id) : bool := existsb (Nat.eqb u) (node_ids g).

Definition node_kind g (u : id) : option (ukind D) :=
  match find (fun p => fst p =? u) (g_nodes g) with
  | Some p => Some (snd p)
  | None => None
  end.

(** [G.out_edges(u, data=True)], [G.in_edges(u, data=True)]. *)
Definition out_edges g (u : id) : list edge := filter (fun e => e_src e =? u) (g_edges g).
Definition in_edges g (u : id) : list edge := filter (fun e => e_dst e =? u) (g_edges g).

(** [Unit.subcircuits] (PC.py:310-311) and [Unit.parents] (PC.py:63-67). *)
Definition subcircuits g u : list id := map e_dst (out_edges g u).
Definition parents g u : list id := map e_src (in_edges g u).

Definition is_edge (u v : id) (e : edge) : bool := (e_src e =? u) && (e_dst e =? v).

(** [ProbabilisticCircuit.add_node] (PC.py:776-782): adding an existing node is a no-op. *)
Definition add_node g (u : id) (k : ukind D) : graph D :=
  if has_node g u then g else mkGraph (g_nodes g ++ [(u, k)]) (g_edges g).

(** [nx.DiGraph.add_edge(u, v, **data)]: an existing edge keeps its position and has its attributes updated
    (an attribute that is not given stays as it was).  Simplification: both end points are already nodes;
    the code under study always adds them before. *)
Definition add_edge g (u v : id) (lw : option num) : graph D :=
  if existsb (is_edge u v) (g_edges g)
  then mkGraph (g_nodes g)
         (map (fun e => if is_edge u v e
                        then mkEdge u v (match lw with Some w => Some w | None => e_lw e end)
                        else e) (g_edges g))
  else mkGraph (g_nodes g) (g_edges g ++ [mkEdge u v lw]).

(** [nx.DiGraph.remove_edge]: raises NetworkXError when the edge is missing. *)
Definition remove_edge g (u v : id) : option (graph D) :=
  if existsb (is_edge u v) (g_edges g)
  then Some (mkGraph (g_nodes g) (filter (fun e => negb (is_edge u v e)) (g_edges g)))
  else None.

Definition drop_node g (u : id) : graph D :=
  mkGraph (filter (fun p => negb (fst p =? u)) (g_nodes g))
          (filter (fun e => negb (e_src e =? u) && negb (e_dst e =? u)) (g_edges g)).

(** [nx.DiGraph.remove_node]: raises NetworkXError when the node is missing. *)
Definition remove_node g (u : id) : option (graph D) :=
  if has_node g u then Some (drop_node g u) else None.

(** [nx.DiGraph.remove_nodes_from]: missing nodes are ignored. *)
Definition remove_nodes_from g (l : list id) : graph D := fold_left drop_node l g.

(** [ProbabilisticCircuit.root] (PC.py:788-800): nodes with in-degree 0; more than one raises ValueError, none raises
    IndexError. *)
Definition root_candidates g : list id :=
  filter (fun u => match in_edges g u with [] => true | _ => false end) (node_ids g).

Definition root g : option id :=
  match root_candidates g with
  | [r] => Some r
  | _ => None
  end.

(** [nx.bfs_layers]: the inner double loop that collects the unvisited children of a layer. *)
Fixpoint expand_children (cs : list id) (visited next : list id) : list id * list id :=
  match cs with
  | [] => (visited, next)
  | c :: cs' => if existsb (Nat.eqb c) visited
                then expand_children cs' visited next
                else expand_children cs' (c :: visited) (next ++ [c])
  end.

Fixpoint expand_layer g (layer : list id) (visited next : list id) : list id * list id :=
  match layer with
  | [] => (visited, next)
  | u :: layer' => let '(visited', next') := expand_children (subcircuits g u) visited next in
                   expand_layer g layer' visited' next'
  end.

(** The while loop of [nx.bfs_layers].  [None] means that the fuel ran out; [layers_from_total] in GraphFacts.v shows
    that this cannot happen with the fuel used in [layers_from]. *)
Fixpoint bfs_loop g (fuel : nat) (current visited : list id) : option (list (list id)) :=
  match current with
  | [] => Some []
  | _ :: _ =>
    match fuel with
    | 0 => None
    | S f => let '(visited', next) := expand_layer g current visited [] in
             match bfs_loop g f next visited' with
             | None => None
             | Some ls => Some (current :: ls)
             end
    end
  end.

Definition layers_from g (r : id) : option (list (list id)) :=
  if has_node g r then bfs_loop g (S (length (g_nodes g))) [r] [r] else None.

(** [ProbabilisticCircuit.layers] (PC.py:757-759). *)
Definition layers g : option (list (list id)) :=
  match root g with None => None | Some r => layers_from g r end.

(** The iteration order [for layer in reversed(self.layers) for unit in layer]. *)
Definition bottom_up g : option (list id) :=
  match layers g with None => None | Some ls => Some (concat (rev ls)) end.

(** The iteration order [for layer in self.layers for unit in layer]. *)
Definition top_down g : option (list id) :=
  match layers g with None => None | Some ls => Some (concat ls) end.

(** [nx.descendants(g, r) | {r}]. *)
Definition reachable_list g (r : id) : option (list id) :=
  match layers_from g r with None => None | Some ls => Some (concat ls) end.

(** [ProbabilisticCircuit.remove_unreachable_nodes] (PC.py:844-850).  The set difference has no order; removal order does
    not matter for the result. *)
Definition remove_unreachable_nodes g (r : id) : option (graph D) :=
  match reachable_list g r with
  | None => None
  | Some rs => Some (remove_nodes_from g (filter (fun u => negb (existsb (Nat.eqb u) rs)) (node_ids g)))
  end.

(** ** Specification vocabulary (independent of the algorithms) *)

(** [v] can be reached from [u] along edges. *)
Inductive reach g (u : id) : id -> Prop :=
| reach_refl : reach g u u
| reach_step : forall v e, reach g u v -> In e (g_edges g) -> e_src e = v -> reach g u (e_dst e).

(** A proper networkx graph: every node once, every edge once, end points are nodes. *)
Record wf g : Prop := {
  wf_nodes : NoDup (node_ids g);
  wf_edges : NoDup (map (fun e => (e_src e, e_dst e)) (g_edges g));
  wf_src : forall e, In e (g_edges g) -> In (e_src e) (node_ids g);
  wf_dst : forall e, In e (g_edges g) -> In (e_dst e) (node_ids g)
}.

(** All paths from the root to a unit have the same length. *)
Definition graded g (r : id) : Prop :=
  exists lv : id -> nat, lv r = 0 /\
    forall e, In e (g_edges g) -> reach g r (e_src e) -> lv (e_dst e) = S (lv (e_src e)).

(** No directed cycle. *)
Definition acyclic g : Prop :=
  exists rk : id -> nat, forall e, In e (g_edges g) -> rk (e_dst e) < rk (e_src e).

(** Every unit has at most one parent and everything hangs below [r]. *)
Definition tree_shaped g (r : id) : Prop :=
  wf g /\ acyclic g /\ In r (node_ids g) /\
  NoDup (map e_dst (g_edges g)) /\
  (forall u, In u (node_ids g) -> u <> r -> In u (map e_dst (g_edges g))) /\
  ~ In r (map e_dst (g_edges g)).

End Ops.
