(** * Multinomial: MultinomialDistribution

    Source: /repo/src/probabilistic_model/distributions/multinomial.py (M.py below).

    A variable is a number; [dom v] lists the hashes of the elements of its domain in the order of [domain.hash_map]
    (random_events), which is the order of [domain.simple_sets]; element [i] of the domain belongs to index [i] of the
    variable's axis.  A probability array is its shape (given by the variables) and a function from index tuples to
    numbers.  Simplification: axis sums are exact sums over all index tuples that agree on the remaining axes, in any
    order; index tuples outside the shape are never read. *)
From Coq Require Import List Arith Bool Lia ZArith Reals.
From Verif Require Import Num Graph Spec Circuit Interval Dist Support Layout.
Import ListNotations.
Local Open Scope nat_scope.

(** [itertools.product]. *)
Fixpoint cart {A} (ls : list (list A)) : list (list A) :=
  match ls with
  | [] => [[]]
  | l :: ls' => flat_map (fun a => map (cons a) (cart ls')) l
  end.

(** [list.index]: ValueError when absent. *)
Fixpoint index_of (k : Z) (l : list Z) : option nat :=
  match l with
  | [] => None
  | x :: l' => if Z.eqb x k then Some 0 else match index_of k l' with None => None | Some n => Some (S n) end
  end.

Definition mem (v : nat) (l : list nat) : bool := existsb (Nat.eqb v) l.
Definition leqb (l l' : list nat) : bool := if list_eq_dec Nat.eq_dec l l' then true else false.

(** [self._variables] and [self.probabilities]. *)
Record multi : Type := mkMulti { m_vars : list nat; m_at : list nat -> num }.

Section Multinomial.
Variable dom : nat -> list Z.

(** [tuple(len(variable.domain.simple_sets) for variable in variables)] (M.py:37) and all index tuples of that shape. *)
Definition shape (vs : list nat) : list nat := map (fun v => List.length (dom v)) vs.
Definition states (sh : list nat) : list (list nat) := cart (map (seq 0) sh).

(** [np.sum(self.probabilities)]. *)
Definition m_total (m : multi) : num := nsum (map (m_at m) (states (shape (m_vars m)))).

(** [normalize] (M.py:164-169). *)
Definition m_normalize (m : multi) : multi := mkMulti (m_vars m) (fun s => ndiv (m_at m s) (m_total m)).

(** The entries of an index tuple on the axes that are not summed over. *)
Definition kept (vs vars : list nat) (s : list nat) : list nat :=
  map snd (filter (fun vi => mem (fst vi) vs) (combine vars s)).

(** [marginal] (M.py:59-69): the remaining axes stay in the order of [self.variables]; the constructor compares the shape
    with the one that [variables] asks for (M.py:43-45, ValueError). *)
Definition m_marginal (vs : list nat) (m : multi) : option multi :=
  if leqb (shape vs) (shape (filter (fun v => mem v vs) (m_vars m)))
  then Some (m_normalize (mkMulti vs (fun s =>
         nsum (map (m_at m) (filter (fun full => leqb (kept vs (m_vars m) full) s) (states (shape (m_vars m))))))))
  else None.

(** [indices_from_simple_event] (M.py:141-150): ValueError for an element that is not in the domain.  Simplification: an
    assignment that is not a Set raises. *)
Definition m_indices (e : sevent) (vars : list nat) : option (list (list nat)) :=
  mapM (fun v => match e v with ESym l => mapM (fun k => index_of k (dom v)) l | EInt _ => None end) vars.

(** [probability_of_simple_event] (M.py:120-122): [np.ix_] selects the product of the index lists. *)
Definition m_probability_simple (e : sevent) (m : multi) : option num :=
  match m_indices e (m_vars m) with None => None | Some idx => Some (nsum (map (m_at m) (cart idx))) end.

(** [ProbabilisticModel.probability] (probabilistic_model.py:110-119). *)
Definition m_probability (es : list sevent) (m : multi) : option num :=
  match mapM (fun e => m_probability_simple e m) es with None => None | Some ps => Some (nsum ps) end.

(** [log_likelihood] of one row of indices (M.py:124-125): IndexError outside the shape. *)
Definition m_log_likelihood (m : multi) (row : list nat) : option num :=
  if existsb (leqb row) (states (shape (m_vars m))) then Some (nlog (m_at m row)) else None.

(** [probabilities_from_simple_event] (M.py:152-162): the array with everything outside the selection set to zero. *)
Definition in_ix (idx : list (list nat)) (s : list nat) : bool :=
  (List.length idx =? List.length s) && forallb (fun li => mem (snd li) (fst li)) (combine idx s).
Definition m_masked (m : multi) (idx : list (list nat)) (s : list nat) : num := if in_ix idx s then m_at m s else Fin 0%R.

(** [log_conditional] (M.py:127-139). *)
Definition m_log_conditional (es : list sevent) (m : multi) : option (option multi * num) :=
  match mapM (fun e => m_indices e (m_vars m)) es with
  | None => None
  | Some idxs =>
      let m' := mkMulti (m_vars m) (fun s => nsum (map (fun idx => m_masked m idx s) idxs)) in
      if feq (m_total m') (Fin 0%R) then Some (None, NInf) else Some (Some (m_normalize m'), nlog (m_total m'))
  end.

(** [log_mode] (M.py:71-87): the most likely states; [np.max] raises for an empty array.  A state is listed with the
    elements (hashes) of its variables; the union of these simple events is the list of them. *)
Definition m_log_mode (m : multi) : option (list (list (nat * Z)) * num) :=
  let all := states (shape (m_vars m)) in
  match pymax (map (m_at m) all) with
  | None => None
  | Some mx => Some (map (fun s => map (fun vi => (fst vi, nth (snd vi) (dom (fst vi)) 0%Z)) (combine (m_vars m) s))
                         (filter (fun s => feq (m_at m s) mx) all),
                     nlog mx)
  end.

(** [as_probabilistic_circuit] (M.py:171-207): a sum unit with one product of one-hot leaves per state.  The key of a leaf
    is [hash(value)] of the INDEX (M.py:193), an int that hashes to itself.  The weight is the logarithm of
    [self.likelihood] (probabilistic_model.py:64-82), the exponential of [log_likelihood]. *)
Definition m_circuit_tree (m : multi) : pc dist :=
  PSum (map (fun s => (nlog (nexp (nlog (m_at m s))),
                       PProd (map (fun vi => PLeaf (DSym (fst vi) [(Z.of_nat (snd vi), 1%R)])) (combine (m_vars m) s))))
            (states (shape (m_vars m)))).
Definition m_as_probabilistic_circuit (m : multi) : graph dist := layout (m_circuit_tree m).
End Multinomial.
