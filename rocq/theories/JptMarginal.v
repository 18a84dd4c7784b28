(** * JptMarginal: marginals of joint probability trees

    Source: /repo/src/probabilistic_model/learning/jpt/jpt.py (JPT.py).

    Simplifications: the copy that [marginal] works on is the circuit itself, see Copy.v; the class of a circuit (JPT,
    NygaDistribution, ProbabilisticCircuit) is not modelled.  Variables of a fourth kind, for which the library raises
    NotImplementedError, do not exist. *)
From Coq Require Import List Arith Bool ZArith Reals.
From Verif Require Import Num Graph Spec Circuit Interval Dist Simplify Support Mixture Nyga Jpt.
Import ListNotations.

(** [isinstance(variable, Continuous)], [Integer] or [Symbolic] (JPT.py:436-440). *)
Inductive vtype := TContinuous | TInteger | TSymbolic.

Definition type_of (k : jkind) : vtype := match k with KContinuous _ _ _ => TContinuous | KSymbolic _ => TSymbolic | KInteger => TInteger end.

(** [UnivariateDiscreteLeaf(distribution).probabilistic_circuit]: a new circuit with the leaf as its only unit. *)
Definition one_leaf (d : dist) : graph dist := mkGraph [(0%nat, ULeaf d)] [].

(** The simplified form of a univariate circuit (JPT.py:434-442).  IndexError if there is no variable. *)
Definition as_univariate (types : nat -> vtype) (g : graph dist) (vars : list nat) : option (graph dist) :=
  match vars with
  | [] => None
  | v :: _ =>
      match types v with
      | TContinuous => from_uniform_mixture g
      | TInteger => option_map one_leaf (from_mixture true g empty_store empty_store)
      | TSymbolic => option_map one_leaf (from_mixture false g empty_store empty_store)
      end
  end.

(** [JPT.marginal] (JPT.py:417-443).  The outer option is an exception, the inner one is None. *)
Definition jpt_marginal (types : nat -> vtype) (simplify_if_univariate : bool) (vs : list nat) (g : graph dist) : option (option (graph dist)) :=
  match marginal_in_place (fun _ => false) marginal1 vs g with
  | None => None
  | Some None => Some None
  | Some (Some result) =>
      match circuit_variables dist_vars result with
      | None => None
      | Some vars =>
          if (1 <? length vars) || negb simplify_if_univariate then Some (Some result)
          else option_map Some (as_univariate types result vars)
      end
  end.
