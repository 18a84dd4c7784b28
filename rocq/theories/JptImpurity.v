(** * JptImpurity: the arguments of the impurity computation

    Models JPT.construct_impurity and the six properties it reads (/repo/src/probabilistic_model/learning/jpt/jpt.py:145-167, 293-328,
    JPT.py).  The class Impurity itself is compiled code of the library [jpt] that is not part of the repository; what is modelled is
    the list of arguments it is given.

    Simplifications: as in [Jpt] variables are names; the kind of a target or feature is that of the variable of this name
    in [variables_from_init] (None for other names, which Python would look up in the object at hand); [values v] is the number of values
    of the symbolic variable [v] and [std v] the standard deviation of the numeric variable [v]. *)
From Coq Require Import List Arith Bool ZArith Reals.
From Verif Require Import Num Graph Heap Copy Nyga Jpt.
Import ListNotations.
Local Open Scope R_scope.

(** [isinstance(variable, (Continuous, Integer))] and [isinstance(variable, Symbolic)]. *)
Definition is_numeric (k : jkind) : bool := match k with KContinuous _ _ _ | KInteger => true | KSymbolic _ => false end.
Definition is_symbolic (k : jkind) : bool := match k with KSymbolic _ => true | _ => false end.

Definition kind_of (j : jpt) (v : nat) : option jkind :=
  match find (fun vk => Nat.eqb (fst vk) v) (variables_from_init j) with Some vk => Some (snd vk) | None => None end.
Definition has_kind (f : jkind -> bool) (j : jpt) (v : nat) : bool := match kind_of j v with Some k => f k | None => false end.

(** JPT.py:145-167. *)
Definition numeric_variables (j : jpt) : list nat := map fst (filter (fun vk => is_numeric (snd vk)) (variables_from_init j)).
Definition numeric_targets (j : jpt) : list nat := filter (has_kind is_numeric j) (targets j).
Definition numeric_features (j : jpt) : list nat := filter (has_kind is_numeric j) (features j).
Definition symbolic_variables (j : jpt) : list nat := map fst (filter (fun vk => is_symbolic (snd vk)) (variables_from_init j)).
Definition symbolic_targets (j : jpt) : list nat := filter (has_kind is_symbolic j) (targets j).
Definition symbolic_features (j : jpt) : list nat := filter (has_kind is_symbolic j) (features j).

Definition mem (v : nat) (l : list nat) : bool := existsb (Nat.eqb v) l.

(** [[index for index, variable in enumerate(variables) if variable in l]]. *)
Definition indices_in (variables l : list nat) : list nat :=
  map fst (filter (fun iv => mem (snd iv) l) (combine (seq 0 (length variables)) variables)).

(** [variables.index(v)]: the first position; a ValueError if there is none. *)
Fixpoint index_of (variables : list nat) (v : nat) : option nat :=
  match variables with
  | [] => None
  | w :: ws => if Nat.eqb w v then Some 0%nat else match index_of ws v with Some i => Some (S i) | None => None end
  end.

Record impurity := mkImpurity {
  i_min_samples_leaf : R;
  i_numeric_vars : list nat;
  i_symbolic_vars : list nat;
  i_invert_impurity : list nat;
  i_n_sym_vars_total : nat;
  i_n_num_vars_total : nat;
  i_numeric_features : list nat;
  i_symbolic_features : list nat;
  i_symbols : list nat;
  i_max_variances : list R;
  i_dependency_indices : list (nat * list nat)
}.

(** The loop over the dependencies (JPT.py:320-324); writing to the dictionary keeps the position of a key that is there. *)
Fixpoint dict_set (d : list (nat * list nat)) (k : nat) (x : list nat) : list (nat * list nat) :=
  match d with
  | [] => [(k, x)]
  | (k', y) :: d' => if Nat.eqb k' k then (k, x) :: d' else (k', y) :: dict_set d' k x
  end.
Definition dependency_indices (variables : list nat) (deps : list (nat * list nat)) : option (list (nat * list nat)) :=
  foldM (fun d vl =>
    match index_of variables (fst vl), mapM (index_of variables) (snd vl) with
    | Some idx_var, Some idc_dep => Some (dict_set d idx_var idc_dep)
    | _, _ => None
    end) deps [].

(** JPT.py:293-328. *)
Definition construct_impurity (values : nat -> nat) (std : nat -> R) (j : jpt) : option impurity :=
  let variables := map fst (variables_from_init j) in
  match dependency_indices variables (dependencies j) with
  | None => None
  | Some d =>
      Some (mkImpurity (min_samples_leaf j)
        (indices_in variables (numeric_targets j)) (indices_in variables (symbolic_targets j))
        (repeat 0%nat (length (symbolic_targets j)))
        (length (symbolic_variables j)) (length (numeric_variables j))
        (indices_in variables (numeric_features j)) (indices_in variables (symbolic_features j))
        (map values (symbolic_variables j)) (map (fun v => std v ^ 2) (numeric_variables j)) d)
  end.
