(** * BayesFromMulti: conditional probability tables of multinomial distributions

    Source: /repo/src/probabilistic_model/bayesian_network/distributions.py:176-203 (BD.py);
    distributions/multinomial.py is in Multinomial.v.

    [ProbabilisticModel.conditional] (probabilistic_model.py:173-185) fills the variables that the event lacks with their
    domains and calls [log_conditional].  The key of a row is [int(parent_simple_set)] (BD.py:201).  What [int] does with a set
    element is up to random_events, which is not part of the sources: [as_int] is a parameter, from the hash of an element to
    the integer, None for a TypeError.  The forward pass looks rows up by hash (BD.py:83). *)
From Coq Require Import List Arith Bool ZArith Reals.
From Verif Require Import Num Graph Circuit Interval Dist Multinomial Bayes.
Import ListNotations.

Section FromMultinomial.
Variables (dom : nat -> list Z) (as_int : Z -> option Z).

(** [d[k] = row] of a plain dictionary. *)
Definition row_set (cpd : list (Z * dict)) (k : Z) (row : dict) : list (Z * dict) :=
  if existsb (fun kr => Z.eqb (fst kr) k) cpd then map (fun kr => if Z.eqb (fst kr) k then (k, row) else kr) cpd
  else cpd ++ [(k, row)].

(** The event "the parent is [k]" with the missing variable filled (BD.py:192-193, probabilistic_model.py:182). *)
Definition parent_is (p : nat) (k : Z) : sevent := fun x => if x =? p then ESym [k] else ESym (dom x).

(** [zip(range(len(self.variable.domain.simple_sets)), marginal.probabilities.tolist())] (BD.py:196-199).  Simplification: an
    entry that is no real number raises; it cannot occur for a real table. *)
Definition table_row (v : nat) (m : multi) : option dict :=
  mapM (fun i => match m_at m [i] with Fin r => Some (Z.of_nat i, r) | _ => None end) (seq 0 (length (dom v))).

(** One parent state (BD.py:191-201): [conditional] is None for an impossible state and has no [marginal] (AttributeError). *)
Definition multinomial_turn (v p : nat) (m : multi) (k : Z) (cpd : list (Z * dict)) : option (list (Z * dict)) :=
  match m_log_conditional dom [parent_is p k] m with
  | Some (Some c, _) =>
      match m_marginal dom [v] c with
      | None => None
      | Some mg => match table_row v mg, as_int k with Some row, Some z => Some (row_set cpd z row) | _, _ => None end
      end
  | _ => None
  end.

(** [ConditionalProbabilityTable.from_multinomial_distribution] (BD.py:176-203) of the table of the variable [v]; [cpd] is the
    dictionary before the call, empty after construction. *)
Definition from_multinomial_distribution (v : nat) (m : multi) (cpd : list (Z * dict)) : option (list (Z * dict)) :=
  match m_vars m with
  | [a; b] =>
      if mem v [a; b] then
        let p := if negb (a =? v) then a else b in
        foldM (fun acc k => multinomial_turn v p m k acc) (dom p) cpd
      else None
  | _ => None
  end.
End FromMultinomial.
