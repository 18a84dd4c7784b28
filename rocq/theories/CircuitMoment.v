(** * CircuitMoment: moments of a circuit

    Models PC.py:264-269 (LeafUnit.moment), 399-407 (SumUnit.moment = forward), 651-655 (ProductUnit.moment = log_forward),
    966-970 (ProbabilisticCircuit.moment) and probabilistic_model.py:226-254 (expectation, variance).

    A unit's result is a numpy vector with one entry per variable of the circuit.  Simplification: a sum or product unit
    without children yields the numpy scalar 0.0, on which the units above it or the final [zip] raise; the model raises at
    once. *)
From Coq Require Import List Arith Bool Reals ZArith.
From Verif Require Import Num Graph Spec Circuit Interval Dist.
Import ListNotations.

Definition vec := list num.

(** Elementwise addition and multiplication by a scalar. *)
Fixpoint vadd (a b : vec) : vec :=
  match a, b with
  | x :: a', y :: b' => nadd x y :: vadd a' b'
  | _, _ => []
  end.
Definition vscale (k : num) (a : vec) : vec := map (nmul k) a.
Definition vzero (n : nat) : vec := repeat (Fin 0) n.

Fixpoint vset (i : nat) (x : num) (a : vec) : vec :=
  match a, i with
  | [], _ => []
  | _ :: a', O => x :: a'
  | y :: a', S j => y :: vset j x a'
  end.

(** [np.sum([np.exp(weight) * result ...], axis=0)]. *)
Definition sum_moment (n : nat) (l : list (num * vec)) : option vec :=
  match l with
  | [] => None
  | _ => Some (fold_left vadd (map (fun p => vscale (nexp (fst p)) (snd p)) l) (vzero n))
  end.

(** [np.sum([result ...], axis=0)]. *)
Definition prod_moment (n : nat) (l : list vec) : option vec :=
  match l with [] => None | _ => Some (fold_left vadd l (vzero n)) end.

(** [order] and [center] are variable maps: KeyError when a leaf's variable is missing (D.py:487-488, 564-565, U.py:50-51,
    G.py:80-81).  [variable_to_index_map[variable]] raises KeyError for a foreign variable. *)
Definition leaf_moment (vars : list nat) (order : nat -> option nat) (center : nat -> option R) (d : dist) : option vec :=
  match order (dvar d), center (dvar d) with
  | Some n, Some c =>
      match moment1 d n c with
      | None => None
      | Some m => match var_index vars (dvar d) with
                  | None => None
                  | Some i => Some (vset i (Fin m) (vzero (length vars)))
                  end
      end
  | _, _ => None
  end.

(** [ProbabilisticCircuit.moment]: a dictionary from the circuit's variables to numbers. *)
Definition circuit_moment (order : nat -> option nat) (center : nat -> option R) (g : graph dist) (st : store vec)
  : option (list (nat * num) * store vec) :=
  match circuit_variables dist_vars g with
  | None => None
  | Some vars =>
    match run_pass (leaf_moment vars order center) (sum_moment (length vars)) (prod_moment (length vars)) g st with
    | None => None
    | Some (r, st') => Some (combine vars r, st')
    end
  end.

(** [variables] defaults to the numeric variables of the model; a variable's kind is a property of the variable. *)
Definition numeric_variables (symbolic : nat -> bool) (vars : list nat) : list nat := filter (fun v => negb (symbolic v)) vars.

Definition vmap_const {X} (vs : list nat) (x : X) : nat -> option X := fun v => if existsb (Nat.eqb v) vs then Some x else None.

(** [expectation] (probabilistic_model.py:226-239). *)
Definition expectation (symbolic : nat -> bool) (g : graph dist) (st : store vec) : option (list (nat * num) * store vec) :=
  match circuit_variables dist_vars g with
  | None => None
  | Some vars => let vs := numeric_variables symbolic vars in circuit_moment (vmap_const vs 1%nat) (vmap_const vs 0%R) g st
  end.

Fixpoint assoc (v : nat) (l : list (nat * num)) : option num :=
  match l with [] => None | (w, x) :: l' => if w =? v then Some x else assoc v l' end.

(** [variance] (probabilistic_model.py:241-254): second moment about the expectation.  A centre that is not a real number
    does not arise from real leaf moments and is not represented. *)
Definition variance (symbolic : nat -> bool) (g : graph dist) (st : store vec) : option (list (nat * num) * store vec) :=
  match circuit_variables dist_vars g with
  | None => None
  | Some vars =>
    match expectation symbolic g st with
    | None => None
    | Some (ex, st') =>
        circuit_moment (vmap_const (numeric_variables symbolic vars) 2%nat)
          (fun v => match assoc v ex with Some (Fin c) => Some c | _ => None end) g st'
    end
  end.
