(** * BayesFromUnit: a circuit node of a Bayesian network made from a unit

    Source: /repo/src/probabilistic_model/bayesian_network/distributions.py:277-286 (BD.py, [from_unit]) and
    /repo/src/probabilistic_model/probabilistic_circuit/nx/probabilistic_circuit.py (PC.py, [__copy__] of units). *)
From Coq Require Import List Arith Bool ZArith Reals.
From Verif Require Import Num Graph Circuit Dist Bayes.
Import ListNotations.

(** The circuit of [unit.__copy__()]: LeafUnit.__copy__ (PC.py:261-262) copies the distribution, SumUnit.__copy__ and
    ProductUnit.__copy__ (PC.py:454-455, 700-701) are [empty_copy] (PC.py:158-165), a new unit without subcircuits.  The
    constructor puts the new unit into a new circuit (PC.py:46-52).  None: the unit is not part of the circuit. *)
Definition copy_unit {D} (g : graph D) (u : id) : option (graph D) :=
  match node_kind g u with
  | None => None
  | Some k => Some (mkGraph [(0, k)] [])
  end.

(** [ConditionalProbabilisticCircuit.from_unit] (BD.py:277-286) of a node made by its constructor, whose dictionary is empty
    (BD.py:215-218): one circuit per index of a subcircuit. *)
Definition from_unit {D} (g : graph D) (u : id) : option (list (Z * graph D)) :=
  mapM (fun ic => match copy_unit g (snd ic) with None => None | Some h => Some (Z.of_nat (fst ic), h) end)
       (combine (seq 0 (length (subcircuits g u))) (subcircuits g u)).
