(** * NodeWeights: the weights of the units of a circuit

    Source: /repo/src/probabilistic_model/probabilistic_circuit/nx/probabilistic_circuit.py (PC.py), [nodes_weights] (1237-1259).

    Simplifications: the dictionary maps units instead of their hashes; running out of [fuel] stands for a loop that does not
    end, it does not occur ([nodes_weights_total]).  [attr] is the attribute ["weight"] of an edge; the only attribute that
    the code ever writes is ["log_weight"] ([no_attribute]). *)
From Coq Require Import List Arith Bool Reals.
From Verif Require Import Num Graph Circuit.
Import ListNotations.
Local Open Scope nat_scope.

Definition weights_map : Type := list (id * list R).

(** [node_weights.get(hash(u), [])]. *)
Definition get_weights (m : weights_map) (u : id) : list R :=
  match find (fun kv => fst kv =? u) m with Some kv => snd kv | None => [] end.
Definition set_weights (m : weights_map) (u : id) (ws : list R) : weights_map := (u, ws) :: m.

Section NodeWeights.
Context {D : Type}.
Variable attr : edge -> option R.
Implicit Types g : graph D.

Definition edge_weight (e : edge) : R := match attr e with Some w => w | None => 1%R end.

(** One successor (PC.py:1251-1258). *)
Definition visit (u : id) (st : weights_map * list id * list id) (e : edge) : weights_map * list id * list id :=
  let '(m, seen, queue) := st in
  let v := e_dst e in
  let m' := set_weights m v (map (fun old => (old * edge_weight e)%R) (get_weights m u) ++ get_weights m v) in
  if existsb (Nat.eqb v) seen then (m', seen, queue) else (m', v :: seen, queue ++ [v]).

(** The loop (PC.py:1248-1258). *)
Fixpoint weights_loop g (fuel : nat) (st : weights_map * list id * list id) : option weights_map :=
  let '(m, seen, queue) := st in
  match queue with
  | [] => Some m
  | u :: queue' =>
    match fuel with
    | 0 => None
    | S f => weights_loop g f (fold_left (visit u) (out_edges g u) (m, seen, queue'))
    end
  end.

(** [nodes_weights] (PC.py:1237-1259). *)
Definition nodes_weights g : option weights_map :=
  match root g with
  | None => None
  | Some r => weights_loop g (S (length (g_nodes g))) ([(r, [1%R])], [r], [r])
  end.
End NodeWeights.

Definition no_attribute : edge -> option R := fun _ => None.
