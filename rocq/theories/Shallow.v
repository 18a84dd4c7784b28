(** * Shallow: the transformation into shallow form

    Source: /repo/src/probabilistic_model/probabilistic_circuit/nx/probabilistic_circuit.py (PC.py), class ShallowProbabilisticCircuit.

    Simplifications: new units get the next free number.  The only attribute of an edge is ["log_weight"], so that reading the
    attribute ["weight"] always gives the default 1.  The copy that is worked on has the numbers of the original, which is not
    used any more.  Running out of [fuel] stands for infinite recursion; it does not occur for trees ([C57_characterised]). *)
From Coq Require Import List Arith Bool Reals.
From Verif Require Import Num Graph Circuit Simplify Copy Heap.
Import ListNotations.
Local Open Scope nat_scope.

(** [itertools.product]: the last factor advances fastest. *)
Fixpoint cartesian {A} (ls : list (list A)) : list (list A) :=
  match ls with
  | [] => [[]]
  | l :: ls' => flat_map (fun x => map (cons x) (cartesian ls')) l
  end.

Section Shallow.
Context {D : Type}.
Implicit Types g : graph D.

(** [get_edge_data(u, v)]: the attributes of an edge. *)
Definition edge_data g (u v : id) : option (option num) := option_map e_lw (find (is_edge u v) (g_edges g)).

(** [len(list(predecessors(v))) == 0]. *)
Definition orphan g (v : id) : bool := match in_edges g v with [] => true | _ => false end.

(** [remove_node_and_successor_structure] (PC.py:1439-1449). *)
Fixpoint prune (fuel : nat) (u : id) g : option (graph D) :=
  match fuel with
  | 0 => None
  | S f =>
    let succs := subcircuits g u in
    match remove_node g u with
    | None => None
    | Some g1 => foldM (fun g v => if orphan g v then prune f v g else Some g) succs g1
    end
  end.

Definition prune_orphan g (v : id) : option (graph D) := if orphan g v then prune (S (length (g_nodes g))) v g else Some g.

(** The edge from [presucc] goes to the new unit [s] instead of [n] (PC.py:1324-1327, 1350-1353). *)
Definition redirect g (presucc : option id) (n s : id) : option (graph D) :=
  match presucc with
  | None => Some g
  | Some u =>
    match edge_data g u n with
    | None => None (* NetworkXError in remove_edge *)
    | Some lw => remove_edge (add_edge g u s lw) u n
    end
  end.

(** A leaf becomes a sum of one product of one leaf (PC.py:1317-1328). *)
Definition wrap_leaf (n : id) (presucc : option id) (st : graph D * nat) : option (graph D * nat) :=
  let '(g, fresh) := st in
  let s := fresh in let p := S fresh in
  let g1 := add_node (add_node g s USum) p UProd in
  let g2 := add_edge (add_edge g1 p n None) s p (Some (Fin 0)) in
  match redirect g2 presucc n s with
  | None => None
  | Some g3 => Some (g3, S (S fresh))
  end.

(** The body of the loop over the successors of a sum unit (PC.py:1333-1341). *)
Definition lift_child (n : id) g (s : id) : option (graph D) :=
  match edge_data g n s with
  | None => None
  | Some lw =>
    let first_weight := match lw with Some w => w | None => Fin 0 end in
    let second_weight := Fin 1 in
    let g1 := fold_left (fun g p => add_edge g n p (Some (nadd first_weight second_weight))) (subcircuits g s) g in
    match remove_edge g1 n s with
    | None => None
    | Some g2 => prune_orphan g2 s
    end
  end.

(** One combination of product units (PC.py:1365-1376); the product of the weights is 1. *)
Definition add_combination (s : id) (st : graph D * nat) (combination : list id) : graph D * nat :=
  let '(g, p) := st in
  let g1 := add_node g p UProd in
  let g2 := fold_left (fun g under => fold_left (fun g e => add_edge g p (e_dst e) (e_lw e)) (out_edges g under) g) combination g1 in
  (add_edge g2 s p (Some (Fin 1)), S p).

(** The product unit itself is removed (PC.py:1354-1358). *)
Definition detach g (presucc : option id) (n : id) : option (graph D) :=
  match presucc with
  | None => remove_node g n
  | Some _ => if orphan g n then remove_node g n else Some g
  end.

(** What happens to a product unit after the recursive calls (PC.py:1346-1380). *)
Definition distribute (n : id) (presucc : option id) (st : graph D * nat) : option (graph D * nat) :=
  let '(g, s) := st in
  let sums := subcircuits g n in
  match redirect (add_node g s USum) presucc n s with
  | None => None
  | Some g1 =>
    match detach g1 presucc n with
    | None => None
    | Some g2 =>
      let '(g3, fresh) := fold_left (add_combination s) (cartesian (map (subcircuits g2) sums)) (g2, S s) in
      match foldM prune_orphan sums g3 with
      | None => None
      | Some g4 => Some (g4, fresh)
      end
    end
  end.

(** [shallowing] (PC.py:1308-1383). *)
Fixpoint shallowing (fuel : nat) (n : id) (presucc : option id) (st : graph D * nat) : option (graph D * nat) :=
  match fuel with
  | 0 => None
  | S f =>
    let succ_list := subcircuits (fst st) n in
    match node_kind (fst st) n with
    | None => None
    | Some (ULeaf _) => wrap_leaf n presucc st
    | Some USum =>
      match foldM (fun st c => shallowing f c (Some n) st) succ_list st with
      | None => None
      | Some (g1, fresh) =>
        match foldM (lift_child n) (subcircuits g1 n) g1 with
        | None => None
        | Some g2 => Some (g2, fresh)
        end
      end
    | Some UProd =>
      match foldM (fun st c => shallowing f c (Some n) st) succ_list st with
      | None => None
      | Some st1 => distribute n presucc st1
      end
    end
  end.

(** [from_probabilistic_circuit] (PC.py:1295-1306). *)
Definition from_probabilistic_circuit g : option (graph D) :=
  let shallow_pc := circuit_copy (fun u => u) g in
  match root shallow_pc with
  | None => None
  | Some r =>
    match shallowing (S (length (g_nodes g))) r None (shallow_pc, S (list_max (node_ids g))) with
    | None => None
    | Some (g', _) => Some (add_circuit empty_graph g')
    end
  end.

End Shallow.
