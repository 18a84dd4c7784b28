(** * FullyFactorized: fully factorized circuits

    Source: /repo/src/probabilistic_model/probabilistic_circuit/nx/helper.py, [fully_factorized] (73-104).

    Simplifications: the variables are names with their kind, in the given order; the circuit that is put together is the layout of
    its tree, that is, the fresh units are numbered in order; a product without subcircuits is represented by its single unit. *)
From Coq Require Import List Arith Bool Reals ZArith.
From Verif Require Import Num Graph Spec Circuit Interval Dist Layout UniformMeasure.
Import ListNotations.
Local Open Scope R_scope.

(** The distribution of one variable (helper.py:88-101); KeyError if a mean or a variance is missing. *)
Definition factor (domain : nat -> list Z) (means variances : nat -> option R) (vk : nat * vkind) : option dist :=
  let '(v, k) := vk in
  match k with
  | VContinuous => match means v, variances v with Some m, Some s => Some (DGauss v m s) | _, _ => None end
  | VSymbolic => Some (DSym v (map (fun x => (x, 1 / INR (length (domain v)))) (domain v)))
  | VInteger => None
  end.

(** [fully_factorized] (helper.py:73-104). *)
Definition fully_factorized (domain : nat -> list Z) (variables : list (nat * vkind)) (means variances : nat -> option R) : option (graph dist) :=
  match mapM (factor domain means variances) variables with
  | Some ds => Some (layout (PProd (map PLeaf ds)))
  | None => None
  end.
