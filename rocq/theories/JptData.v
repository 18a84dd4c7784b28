(** * JptData: variables of a table and the table of numbers that a JPT is fitted to

    Sources: /repo/src/probabilistic_model/learning/jpt/variables.py (JV.py): [infer_variables_from_dataframe] (10-68) and
    [ScaledContinuous] (159-176); /repo/src/probabilistic_model/learning/jpt/jpt.py (JPT.py): [preprocess_data] (169-188).

    Simplifications: entries are real numbers, integers or strings, none is missing; strings are numbered in their order; the
    elements of a symbolic domain are enumerated in the order of their values; a value of the wrong type raises. *)
From Coq Require Import List Arith Bool Lia ZArith Reals.
From Verif Require Import Num Graph Circuit Interval Dist Nyga.
Import ListNotations.
Local Open Scope R_scope.

(** A column with its dtype: float64, int64, object, anything else. *)
Inductive series : Type :=
| Floats (l : list R)
| Ints (l : list Z)
| Objects (l : list nat)
| OtherType (n : nat).
Definition frame : Type := list (nat * series).

(** Variables of JPTs: [Continuous] and [ScaledContinuous], [Integer], [Symbolic]. *)
Inductive jvar : Type :=
| JCont (scaled : bool) (name : nat) (mean std : num) (minimal_distance : R)
| JInt (name : nat) (mean std : num)
| JSym (name : nat) (elements : list nat).
Definition jname (v : jvar) : nat := match v with JCont _ n _ _ _ | JInt n _ _ | JSym n _ => n end.

(** [Series.mean()] and [Series.std()] (one degree of freedom less than entries); NaN if there are too few entries. *)
Definition mean (l : list R) : num := match l with [] => NaN | _ => Fin (Rsum l / INR (length l)) end.
Definition std (l : list R) : num :=
  match mean l with
  | Fin m => if (length l =? 1)%nat then NaN else Fin (sqrt (Rsum (map (fun x => (x - m) * (x - m)) l) / (INR (length l) - 1)))
  | _ => NaN
  end.

(** [np.diff(l)] and [.min()]. *)
Fixpoint diffs (l : list R) : list R :=
  match l with
  | x :: ((y :: _) as l') => (y - x) :: diffs l'
  | _ => []
  end.
Definition least (l : list R) : option R := match l with [] => None | x :: l' => Some (fold_left Rmin l' x) end.

(** [minimal_distance_between_values] (JV.py:33-36). *)
Definition minimal_distance (l : list R) : option R :=
  let unique_values := map fst (np_unique l) in
  if (length unique_values =? 1)%nat then Some 1 else least (diffs unique_values).

(** [infer_variables_from_dataframe] (JV.py:10-68). *)
Definition infer_column (scale : bool) (c : nat * series) : option jvar :=
  match snd c with
  | Floats l => match minimal_distance l with None => None | Some d => Some (JCont scale (fst c) (mean l) (std l) d) end
  | Ints l => Some (JInt (fst c) (mean (map IZR l)) (std (map IZR l)))
  | Objects l => Some (JSym (fst c) (sset_of l))
  | OtherType _ => None
  end.
Definition infer_variables (scale : bool) (data : frame) : option (list jvar) := mapM (infer_column scale) data.

(** [ScaledContinuous.encode] and [decode] (JV.py:169-173). *)
Definition encode (m s : num) (x : num) : num := ndiv (nsub x m) s.
Definition decode (m s : num) (x : num) : num := nadd (nmul x s) m.

(** Position of a symbol in the domain; KeyError if it is not there (JPT.py:183-184). *)
Fixpoint position (l : list nat) (x : nat) : option nat :=
  match l with
  | [] => None
  | y :: l' => if (y =? x)%nat then Some 0%nat else option_map S (position l' x)
  end.

(** One column (JPT.py:179-185). *)
Definition encode_column (v : jvar) (c : series) : option (list num) :=
  match v, c with
  | JCont true _ m s _, Floats l => Some (map (fun x => encode m s (Fin x)) l)
  | JCont true _ m s _, Ints l => Some (map (fun x => encode m s (Fin (IZR x))) l)
  | JCont false _ _ _ _, Floats l | JInt _ _ _, Floats l => Some (map Fin l)
  | JCont false _ _ _ _, Ints l | JInt _ _ _, Ints l => Some (map (fun x => Fin (IZR x)) l)
  | JSym _ es, Objects l => mapM (fun x => option_map (fun i => Fin (INR i)) (position es x)) l
  | _, _ => None
  end.

Definition rows (data : frame) : nat :=
  match data with
  | [] => 0
  | (_, Floats l) :: _ => length l
  | (_, Ints l) :: _ => length l
  | (_, Objects l) :: _ => length l
  | (_, OtherType n) :: _ => n
  end.

(** [data[variable.name]]; KeyError for an unknown name. *)
Definition get_column (data : frame) (n : nat) : option series :=
  match find (fun c => (fst c =? n)%nat) data with Some c => Some (snd c) | None => None end.

(** [preprocess_data] (JPT.py:169-188), column by column: as many columns as the data have, the ones without a variable stay
    zero; IndexError if there are more variables than columns. *)
Definition preprocess (variables : list jvar) (data : frame) : option (list (list num)) :=
  match mapM (fun v => match get_column data (jname v) with None => None | Some c => encode_column v c end) variables with
  | None => None
  | Some cols => if (length cols <=? length data)%nat then Some (cols ++ repeat (repeat (Fin 0) (rows data)) (length data - length cols)) else None
  end.
