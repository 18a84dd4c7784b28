(** * Interaction: mounting one mixture into another

    Source: /repo/src/probabilistic_model/probabilistic_circuit/nx/probabilistic_circuit.py (PC.py). *)
From Coq Require Import List Arith Bool Lia ZArith Reals.
From Verif Require Import Num Graph Spec Circuit Interval Dist Simplify Conditional Copy Heap.
Import ListNotations.
Local Open Scope nat_scope.

Section Interaction.
Context {D : Type} (dvars : D -> list nat).
Implicit Types g h : graph D.

(** [G.subgraph(nodes)] of networkx. *)
Definition subgraph h (l : list id) : graph D :=
  let inside v := existsb (Nat.eqb v) l in
  mkGraph (filter (fun n => inside (fst n)) (g_nodes h)) (filter (fun e => inside (e_src e) && inside (e_dst e)) (g_edges h)).

(** [Unit.mount] (PC.py:117-126): the descendants of [u] in its circuit [h], and [u], are added to the circuit [g]. *)
Definition mount g h (u : id) : option (graph D) :=
  match reachable_list h u with
  | None => None
  | Some l => Some (add_circuit g (subgraph h l))
  end.

Fixpoint enumerate {A} (n : nat) (l : list A) : list (nat * A) :=
  match l with [] => [] | a :: l' => (n, a) :: enumerate (S n) l' end.

(** The answers of the interaction model: to the condition "own latent variable is i", and to the query "own latent
    variable is i and the other one is j".  None: an exception. *)
Variable pcond : nat -> option num.
Variable pquery : nat -> nat -> option num.

(** The inner loop (PC.py:505-523): an edge from the proxy [s] to every subcircuit of the other unit that has a positive
    probability together with the condition.  [add_subcircuit] mounts first (PC.py:389-397); mounting a unit a second time
    copies from the circuit it is already in and changes nothing, here it copies from [h] again. *)
Definition mount_other h (i : nat) (pc : num) (s : id) g (jc : nat * id) : option (graph D) :=
  match pquery i (fst jc) with
  | None => None
  | Some pq =>
      if is_zero pq then Some g
      else match mount g h (snd jc) with
           | None => None
           | Some g' => Some (add_edge g' s (snd jc) (Some (nlog (ndiv pq pc))))
           end
  end.

(** One turn of the outer loop (PC.py:481-524).  [mount] of the new proxies and of the own subcircuit, which are in the
    circuit already, changes nothing and is left out. *)
Definition mount_own h (self : id) (oth : list id) (x : graph D * nat) (ic : nat * id) : option (graph D * nat) :=
  let '(g, nx) := x in
  match pcond (fst ic) with
  | None => None
  | Some pc =>
      if is_zero pc then Some (g, nx)
      else
        let p := nx in
        let s := S nx in
        let g1 := add_node (add_node g p UProd) s USum in
        match remove_edge g1 self (snd ic) with
        | None => None
        | Some g2 =>
            let g3 := add_edge g2 self p (Some (nlog pc)) in
            let g4 := add_edge g3 p (snd ic) None in
            let g5 := add_edge g4 p s None in
            match foldM (mount_other h (fst ic) pc s) (enumerate 0 oth) g5 with
            | None => None
            | Some g6 => match sum_normalize g6 s with
                         | None => None
                         | Some g7 => Some (g7, S (S nx))
                         end
            end
        end
  end.

(** [SumUnit.mount_with_interaction_terms] (PC.py:457-524).  [g] and [h] are the circuits of [self] and [other], new units
    are numbered from [nx].  The latent variables of the units are represented by the positions of the subcircuits; that the
    interaction model is over exactly these two (PC.py:472) is not represented. *)
Definition mount_with_interaction_terms g h (self other : id) (nx : nat) : option (graph D * nat) :=
  match unit_variables dvars g (S (length (g_nodes g))) self, unit_variables dvars h (S (length (g_nodes h))) other with
  | Some vs, Some ws =>
      if existsb (fun v => existsb (Nat.eqb v) ws) vs then None (* AssertionError *)
      else foldM (mount_own h self (subcircuits h other)) (enumerate 0 (subcircuits g self)) (g, nx)
  | _, _ => None
  end.
End Interaction.
