(** * Mixture: discrete leaves as sum units and back

    Source: /repo/src/probabilistic_model/probabilistic_circuit/nx/distributions/distributions.py (L.py below). *)
From Coq Require Import List Arith Bool Lia ZArith Reals.
From Verif Require Import Num Graph Spec Circuit Interval Dist Simplify Conditional Support.
Import ListNotations.
Local Open Scope nat_scope.

(** [self.distribution.probabilities]; AttributeError for a distribution that is not discrete. *)
Definition probabilities (d : dist) : option dict := match d with DSym _ p | DInt _ p => Some p | _ => None end.

(** [self.distribution.__class__(self.variable, MissingDict(float, {element: 1.}))] (L.py:99-100). *)
Definition at_element (d : dist) (k : Z) : dist :=
  match d with
  | DSym v _ => DSym v [(k, 1%R)]
  | DInt v _ => DInt v [(k, 1%R)]
  | _ => d
  end.

(** [as_deterministic_sum] (L.py:89-105): a new sum unit in the circuit of the leaf [u], one new leaf and edge per entry,
    the incoming edges of the leaf go to the sum unit, the leaf is removed.  New units are the numbers from [nx] on.
    [add_part] (Conditional.v) is "new leaf, new edge" and carries a store of results, which is not used here. *)
Definition as_deterministic_sum (g : graph dist) (u : id) (nx : nat) : option (graph dist * id) :=
  match node_kind g u with
  | Some (ULeaf d) =>
      match probabilities d with
      | None => None
      | Some p =>
          let parts := map (fun kq => (nlog (Fin (snd kq)), at_element d (fst kq))) p in
          let '(g1, _, _) := fold_left (add_part nx) parts (add_node g nx USum, empty_store, S nx) in
          match remove_node (connect_incoming_edges_to g1 u nx) u with
          | None => None
          | Some g2 => Some (g2, nx)
          end
      end
  | _ => None
  end.

(** CPython's [hash] of an integral number: the remainder modulo 2^61-1 with the sign of the number, where -1 is reserved. *)
Definition pyhash (z : Z) : Z := let r := Z.rem z (2^61 - 1)%Z in if Z.eqb r (-1) then (-2)%Z else r.

(** The elements of the support, as the assignment to query and the key to store under (L.py:118-123).  An interval is
    replaced by its lower end.  Simplifications: random_events would merge the simple sets of a univariate event into one,
    here the elements of all of them are listed and may repeat (the same entry is then written twice); the hash of an
    infinite or fractional end is not modelled (None). *)
Definition elements_of (A : evset) : list (evset * option Z) :=
  match A with
  | ESym l => map (fun k => (ESym [k], Some k)) l
  | EInt js => map (fun i => (EInt [i], match lo i with
                                       | Fin r => if Reqb r (IZR (Int_part r)) then Some (pyhash (Int_part r)) else None
                                       | _ => None
                                       end)) js
  end.
Definition support_elements (E : event) : list (evset * option Z) := flat_map (fun b => flat_map (fun vA => elements_of (snd vA)) b) E.

(** One turn of the loop (L.py:118-123).  Simplification: a probability that is not a real number is not stored (None). *)
Definition mixture_entry (g : graph dist) (v : nat) (acc : dict * store num) (el : evset * option Z) : option (dict * store num) :=
  match snd el, probability_of_simple_event (dist_prob (fun _ => fst el)) g (snd acc) with
  | Some k, Some (Fin q, st') => Some (dset (fst acc) k q, st')
  | _, _ => None
  end.

(** [from_mixture] (L.py:107-128): AssertionError unless there is exactly one variable; IndexError for an empty support.
    The class depends on the type of the variable ([is_integer]). *)
Definition from_mixture (is_integer : bool) (g : graph dist) (ste : store event) (st : store num) : option dist :=
  match circuit_variables dist_vars g with
  | Some [v] =>
      match circuit_support g ste with
      | Some (b :: E, _) =>
          match foldM (mixture_entry g v) (support_elements (b :: E)) ([], st) with
          | None => None
          | Some (p, _) => Some (if is_integer then DInt v p else DSym v p)
          end
      | _ => None
      end
  | _ => None
  end.
