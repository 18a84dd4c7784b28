(** * Simplify: structural in-place operations on circuits

    Models src/probabilistic_model/probabilistic_circuit/nx/probabilistic_circuit.py (PC.py): LeafUnit.simplify,
    SumUnit.simplify, ProductUnit.simplify, ProbabilisticCircuit.simplify, SumUnit.normalize,
    ProbabilisticCircuit.normalize, the marginal methods and ProbabilisticCircuit.marginal_in_place. *)
From Coq Require Import List Arith Bool Lia Reals.
From Verif Require Import Num Graph Circuit.
Import ListNotations.

Section Simplify.
Context {D : Type}.
Variable dead : D -> bool.      (* [self.distribution is None] *)
Implicit Types g : graph D.

(** [Unit.connect_incoming_edges_to] (PC.py:107-115), also inlined in SumUnit.simplify (PC.py:556-558): every incoming
    edge is added again with the new target and its data; the old edges stay. *)
Definition connect_incoming_edges_to g (u c : id) : graph D :=
  fold_left (fun h e => add_edge h (e_src e) c (e_lw e)) (in_edges g u) g.

(** [log_weighted_subcircuits] (PC.py:358-363); KeyError when an edge carries no log weight. *)
Definition log_weighted_subcircuits g (u : id) : option (list (num * id)) :=
  mapM (fun e => match e_lw e with Some w => Some (w, e_dst e) | None => None end) (out_edges g u).

(** The loop body of SumUnit.simplify (PC.py:566-587). *)
Definition sum_merge (u : id) g (ws : num * id) : option (graph D) :=
  let '(w, s) := ws in
  match (if is_ninf w then remove_edge g u s else Some g) with
  | None => None
  | Some g1 =>
    match node_kind g1 s with
    | Some USum =>
        match log_weighted_subcircuits g1 s with
        | None => None
        | Some subs =>
            remove_node (fold_left (fun h p => add_edge h u (snd p) (Some (nadd (fst p) w))) subs g1) s
        end
    | _ => Some g1
    end
  end.

(** SumUnit.simplify (PC.py:550-587). *)
Definition sum_simplify g (u : id) : option (graph D) :=
  match subcircuits g u with
  | [c] => remove_node (connect_incoming_edges_to g u c) u
  | _ => match log_weighted_subcircuits g u with
         | None => None
         | Some l => foldM (sum_merge u) l g
         end
  end.

(** ProductUnit.simplify (PC.py:703-722).  The merge loop adds edges from the child to the grandchildren
    ([subcircuit.add_subcircuit(sub_subcircuit)]), not from the unit itself. *)
Definition prod_merge g (s : id) : graph D :=
  match node_kind g s with
  | Some UProd => fold_left (fun h ss => add_edge h s ss None) (subcircuits g s) g
  | _ => g
  end.

Definition prod_simplify g (u : id) : option (graph D) :=
  match subcircuits g u with
  | [c] => remove_node (connect_incoming_edges_to g u c) u
  | cs => Some (fold_left prod_merge cs g)
  end.

(** LeafUnit.simplify (PC.py:254-256). *)
Definition leaf_simplify g (u : id) (d : D) : option (graph D) := if dead d then remove_node g u else Some g.

(** A unit that is no longer part of the circuit raises (networkx lookups of a missing node). *)
Definition unit_simplify g (u : id) : option (graph D) :=
  match node_kind g u with
  | None => None
  | Some (ULeaf d) => leaf_simplify g u d
  | Some USum => sum_simplify g u
  | Some UProd => prod_simplify g u
  end.

(** [ProbabilisticCircuit.simplify] (PC.py:972-977): the layers are computed once, before the first change. *)
Definition simplify g : option (graph D) :=
  match bottom_up g with None => None | Some order => foldM unit_simplify order g end.

(** SumUnit.normalize (PC.py:589-595).  [logsumexp] of an empty array raises ValueError. *)
Definition set_weights (u : id) (f : num -> num) g : graph D :=
  mkGraph (g_nodes g)
    (map (fun e => if e_src e =? u then mkEdge (e_src e) (e_dst e) (option_map f (e_lw e)) else e) (g_edges g)).

Definition sum_normalize g (u : id) : option (graph D) :=
  match log_weighted_subcircuits g u with
  | None => None
  | Some [] => None
  | Some l => let total := logsumexp (map fst l) in Some (set_weights u (fun w => nsub w total) g)
  end.

(** [ProbabilisticCircuit.normalize] (PC.py:1108-1112). *)
Definition sum_ids g : list id :=
  map fst (filter (fun p => match snd p with USum => true | _ => false end) (g_nodes g)).

Definition normalize g : option (graph D) := foldM sum_normalize (sum_ids g) g.

(** ** Marginalisation *)
Variable dmarg : list nat -> D -> option D.      (* distribution.marginal(variables) *)

Definition set_kind g (u : id) (k : ukind D) : graph D :=
  mkGraph (map (fun p => if fst p =? u then (u, k) else p) (g_nodes g)) (g_edges g).

(** LeafUnit.marginal (PC.py:281-288) and InnerUnit.marginal (PC.py:329-333); the second component tells whether the
    method returned the unit (true) or None (false). *)
Definition unit_marginal (vs : list nat) g (u : id) : option (graph D * bool) :=
  match node_kind g u with
  | None => None
  | Some (ULeaf d) =>
      match dmarg vs d with
      | None => match remove_node g u with None => None | Some g' => Some (g', false) end
      | Some d' => Some (set_kind g u (ULeaf d'), true)
      end
  | Some _ =>
      match subcircuits g u with
      | [] => match remove_node g u with None => None | Some g' => Some (g', false) end
      | _ => Some (g, true)
      end
  end.

(** The bottom-up pass of [marginal_in_place] (PC.py:935): the circuit afterwards, the last unit visited (the root) and
    whether its method returned the unit. *)
Definition marginal_loop (vs : list nat) g : option (graph D * option (id * bool)) :=
  match bottom_up g with
  | None => None
  | Some order => foldM (fun s u => match unit_marginal vs (fst s) u with
                                    | None => None | Some (g', b) => Some (g', Some (u, b)) end) order (g, None)
  end.

(** [ProbabilisticCircuit.marginal_in_place] (PC.py:934-941): [result[-1]] is what the last unit of the pass, the root,
    returned.  [Some None] is the return value None, [None] an exception. *)
Definition marginal_in_place (vs : list nat) g : option (option (graph D)) :=
  match marginal_loop vs g with
  | None => None
  | Some (_, None) => None
  | Some (g1, Some (u, false)) => Some None
  | Some (g1, Some (u, true)) =>
      match remove_unreachable_nodes g1 u with
      | None => None
      | Some g2 => match simplify g2 with None => None | Some g3 => Some (Some g3) end
      end
  end.
End Simplify.
