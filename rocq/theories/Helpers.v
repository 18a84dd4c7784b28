(** * Helpers: two methods of circuits that nothing else in the package calls

    Source: /repo/src/probabilistic_model/probabilistic_circuit/nx/probabilistic_circuit.py (PC.py). *)
From Coq Require Import List Arith Bool ZArith Reals.
From Verif Require Import Num Graph Spec Circuit Interval Dist Simplify Conditional Copy Heap Support Mixture Interaction.
Import ListNotations.
Local Open Scope nat_scope.

(** ** replace_discrete_distribution_with_deterministic_sum *)

(** [isinstance(leaf, UnivariateDiscreteLeaf)]: the leaf classes follow the distributions. *)
Definition is_discrete (d : dist) : bool := match d with DSym _ _ | DInt _ _ => true | _ => false end.

(** One turn of the inner loop (PC.py:1272-1278): [add_subcircuit] of the new unit, which is in the circuit already, only adds
    the edge; the sentinel -1 stands for "no weight" and a sum unit does not accept that (TypeError). *)
Definition redirect (leaf sum_leaf : id) (g : graph dist) (predecessor : id) : option (graph dist) :=
  match find (is_edge predecessor leaf) (g_edges g) with
  | None => None
  | Some e =>
      let weighted := match e_lw e with None => None | Some w => if feq w (Fin (-1)) then None else Some w end in
      match node_kind g predecessor, weighted with
      | Some USum, Some w => remove_edge (add_edge g predecessor sum_leaf (Some w)) predecessor leaf
      | Some UProd, None => remove_edge (add_edge g predecessor sum_leaf None) predecessor leaf
      | _, _ => None
      end
  end.

(** One turn of the outer loop (PC.py:1266-1279).  [predecessors] raises NetworkXError for a unit that is not in the
    graph.  An exception is reported together with the graph it leaves behind ([inr]). *)
Definition replace_leaf (x : graph dist * nat) (leaf : id) : (graph dist * nat) + graph dist :=
  let '(g, nx) := x in
  match node_kind g leaf with
  | Some (ULeaf d) =>
      if is_discrete d then
        match as_deterministic_sum g leaf nx with
        | None => inr g
        | Some (g1, sum_leaf) =>
            if has_node g1 leaf then
              match foldM (redirect leaf sum_leaf) (parents g1 leaf) g1 with
              | None => inr g1
              | Some g2 => match remove_node g2 leaf with
                           | None => inr g2
                           | Some g3 => inl (g3, S nx + match probabilities d with Some p => length p | None => 0 end)
                           end
              end
            else inr g1
        end
      else inl (g, nx)
  | _ => inl (g, nx)
  end.

Fixpoint replace_leaves (old : list id) (x : graph dist * nat) : (graph dist * nat) + graph dist :=
  match old with
  | [] => inl x
  | leaf :: old' => match replace_leaf x leaf with inl y => replace_leaves old' y | inr g => inr g end
  end.

(** [replace_discrete_distribution_with_deterministic_sum] (PC.py:1261-1279); [order] is the order of [self.leaves], which comes from a
    set. *)
Definition replace_discrete (order : list id -> list id) (g : graph dist) (nx : nat) : (graph dist * nat) + graph dist :=
  match circuit_leaves g with
  | None => inr g
  | Some old => replace_leaves (order old) (g, nx)
  end.

(** ** mount_from_bayesian_network *)
Section Mount.
Context {D : Type} (dvars : D -> list nat).
Implicit Types g h : graph D.

(** [log_weighted_subcircuits] (PC.py:361-366): KeyError for an edge without weight. *)
Definition log_weighted_subcircuits g u : option (list (num * id)) :=
  mapM (fun e => match e_lw e with Some w => Some (w, e_dst e) | None => None end) (out_edges g u).

(** One turn of the loop (PC.py:539-548): [own_weight] is the logarithm of a weight, and its logarithm is taken. *)
Definition mount_pair h (self : id) (x : graph D * nat) (wco : (num * id) * id) : option (graph D * nat) :=
  let '(g, p) := x in
  let '((own_weight, own), oth) := wco in
  match remove_edge (add_node g p UProd) self own with
  | None => None
  | Some g1 =>
      let g2 := add_edge (add_edge g1 self p (Some (nlog own_weight))) p own None in
      match mount g2 h oth with
      | None => None
      | Some g3 => Some (add_edge g3 p oth None, S p)
      end
  end.

(** [SumUnit.mount_from_bayesian_network] (PC.py:526-548): [g] and [h] are the circuits of [self] and [other]; new units are numbered
    from [nx]. *)
Definition mount_from_bayesian_network g h (self other : id) (nx : nat) : option (graph D * nat) :=
  match unit_variables dvars g (S (length (g_nodes g))) self, unit_variables dvars h (S (length (g_nodes h))) other with
  | Some vs, Some ws =>
      if existsb (fun v => existsb (Nat.eqb v) ws) vs then None (* AssertionError *)
      else if length (subcircuits g self) =? length (subcircuits h other) then
        match log_weighted_subcircuits g self with
        | None => None
        | Some own => foldM (mount_pair h self) (combine own (subcircuits h other)) (g, nx)
        end
      else None (* AssertionError *)
  | _, _ => None
  end.
End Mount.
