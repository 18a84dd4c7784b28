(** * MultinomialFit: fitting and serialising multinomial distributions

    Source: /repo/src/probabilistic_model/distributions/multinomial.py (M.py).

    Simplifications: data are rows of real numbers; a row that does not have one entry per variable raises (numpy would
    broadcast some of them).  Assigning twice to one entry keeps the last value, as numpy does.  Variables survive
    serialisation (random_events). *)
From Coq Require Import List Arith Bool ZArith Reals String.
From Verif Require Import Num Graph Interval Dist Multinomial Copy JaxLayer.
Import ListNotations.
Local Open Scope string_scope.
Local Open Scope nat_scope.

(** Lexicographic comparison of rows. *)
Fixpoint lex (a b : list R) : comparison :=
  match a, b with
  | [], [] => Eq
  | [], _ => Lt
  | _, [] => Gt
  | x :: a', y :: b' => match total_order_T x y with
                        | inleft (left _) => Lt
                        | inleft (right _) => lex a' b'
                        | inright _ => Gt
                        end
  end.

(** [np.unique(data, return_counts=True, axis=0)]: the distinct rows in order, with their numbers of occurrences. *)
Fixpoint count_row (r : list R) (l : list (list R * nat)) : list (list R * nat) :=
  match l with
  | [] => [(r, 1)]
  | (r', n) :: l' => match lex r r' with
                     | Eq => (r', S n) :: l'
                     | Lt => (r, 1) :: l
                     | Gt => (r', n) :: count_row r l'
                     end
  end.
Definition unique_counts (rows : list (list R)) : list (list R * nat) := fold_left (fun acc r => count_row r acc) rows [].

(** An index into an axis of size [n]; negative indices count from the end, IndexError outside. *)
Definition axis_index (n : nat) (z : Z) : option nat :=
  if (0 <=? z)%Z && (z <? Z.of_nat n)%Z then Some (Z.to_nat z)
  else if (- Z.of_nat n <=? z)%Z && (z <? 0)%Z then Some (Z.to_nat (z + Z.of_nat n)) else None.
Definition row_index (sh : list nat) (r : list R) : option (list nat) :=
  if List.length r =? List.length sh then mapM (fun nx => axis_index (fst nx) (astype_int (snd nx))) (combine sh r) else None.

(** [array[index] = value]. *)
Definition put (a : list nat -> num) (s : list nat) (x : num) : list nat -> num := fun s' => if leqb s' s then x else a s'.

(** [fit] (M.py:217-228). *)
Definition m_fit (dom : nat -> list Z) (rows : list (list R)) (m : multi) : option multi :=
  match mapM (fun rc => match row_index (shape dom (m_vars m)) (fst rc) with Some s => Some (s, snd rc) | None => None end) (unique_counts rows) with
  | None => None
  | Some cells => Some (m_normalize dom (mkMulti (m_vars m) (fold_left (fun a sc => put a (fst sc) (Fin (INR (snd sc)))) cells (fun _ => Fin 0%R))))
  end.

(** ** JSON *)

(** [tolist]. *)
Fixpoint nested (sh : list nat) (a : list nat -> num) : json :=
  match sh with
  | [] => JNum (a [])
  | n :: sh' => JArr (map (fun i => nested sh' (fun s => a (i :: s))) (seq 0 n))
  end.

(** [np.array] of nested lists: the shape and the entries; ValueError for ragged ones. *)
Fixpoint array_of_json (j : json) : option (list nat * (list nat -> num)) :=
  match j with
  | JNum x => Some ([], fun _ => x)
  | JArr l =>
      match mapM array_of_json l with
      | None => None
      | Some [] => Some ([0], fun _ => NaN)
      | Some ((sh, a) :: r) =>
          if forallb (fun p => leqb (fst p) sh) r
          then Some (S (List.length r) :: sh, fun s => match s with i :: s' => match nth_error ((sh, a) :: r) i with Some p => snd p s' | None => NaN end | [] => NaN end)
          else None
      end
  | _ => None
  end.

(** [to_json] and [_from_json] (M.py:230-239); the constructor compares the shapes (M.py:37-45). *)
Definition multi_to_json (dom : nat -> list Z) (m : multi) : json :=
  JObj [("type", JStr "MultinomialDistribution"); ("variables", JArr (map var_to_json (m_vars m)));
        ("probabilities", nested (shape dom (m_vars m)) (m_at m))].
Definition multi_of_json (dom : nat -> list Z) (j : json) : option multi :=
  match jget "variables" j, jget "probabilities" j with
  | Some (JArr vs), Some ps =>
      obind (mapM var_of_json vs) (fun vars =>
      obind (array_of_json ps) (fun a =>
      if leqb (fst a) (shape dom vars) then Some (mkMulti vars (snd a)) else None))
  | _, _ => None
  end.
