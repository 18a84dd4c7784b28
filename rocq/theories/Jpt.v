(** * Jpt: learning joint probability trees

    Source: /repo/src/probabilistic_model/learning/jpt/jpt.py (JPT.py) and learning/jpt/variables.py (VAR.py).

    Simplifications: a variable is its name, a number, together with its kind; Python compares, sorts and hashes variables by
    their name.  The data handed to [fit] are preprocessed rows of real numbers.  The impurity computation is the compiled
    class of the library [jpt]: [best] is any function that tells, for the index array and the bounds of a call of
    [compute_best_split], the gain, [best_split_pos] and the index array after the call, which the library reorders in place. *)
From Coq Require Import List Arith Bool Lia ZArith Reals.
From Verif Require Import Num Graph Spec Circuit Interval Dist Simplify Copy Heap Layout Nyga.
Import ListNotations.
Local Open Scope R_scope.

(** ** Parameters *)

(** The kinds of variables (VAR.py:68-176).  [ScaledContinuous] carries mean and standard deviation. *)
Inductive jkind :=
| KContinuous (minimal_distance min_likelihood_improvement : R) (min_samples_per_quantile : nat)
| KSymbolic (hash : Z -> Z)
| KInteger.

(** The parameters a JPT stores (JPT.py:23-96). *)
Record jpt := mkJpt {
  variables_from_init : list (nat * jkind);
  targets : list nat;
  features : list nat;
  raw_min_samples_leaf : R;              (* _min_samples_leaf *)
  min_impurity_improvement : R;
  max_leaves : num;
  max_depth : num;
  dependencies : list (nat * list nat);
  total_samples : nat
}.

(** [sorted] on names, keeping duplicates. *)
Fixpoint sort_insert {A} (key : A -> nat) (x : A) (l : list A) : list A :=
  match l with
  | [] => [x]
  | y :: l' => if (key x <=? key y)%nat then x :: l else y :: sort_insert key x l'
  end.
Definition sorted_by {A} (key : A -> nat) (l : list A) : list A := fold_right (sort_insert key) [] l.
Definition sorted : list nat -> list nat := sorted_by (fun x => x).

(** [sorted(set(a) - set(b))]. *)
Definition without (a b : list nat) : list nat := sset_of (filter (fun v => negb (existsb (Nat.eqb v) b)) a).

(** [set_targets_and_features] (JPT.py:98-133), targets first. *)
Definition set_targets_and_features (vars : list nat) (ts fs : option (list nat)) : list nat * list nat :=
  match ts with
  | None =>
      match fs with
      | None => (vars, vars)
      | Some f => (without vars f, sorted f)
      end
  | Some t =>
      match fs with
      | None => (sset_of t, without vars t)
      | Some f => (sset_of t, sset_of f)
      end
  end.

(** [__init__] (JPT.py:81-96).  A new JPT has one sample in total (JPT.py:60). *)
Definition init (vars : list (nat * jkind)) (ts fs : option (list nat)) (msl imp : R) (ml md : num) (deps : option (list (nat * list nat))) : jpt :=
  let vs := sorted_by fst vars in
  let '(t, f) := set_targets_and_features (map fst vs) ts fs in
  mkJpt vs t f msl imp ml md (match deps with None => map (fun v => (v, t)) f | Some d => d end) 1.

(** [math.ceil]. *)
Definition ceil (x : R) : R := - IZR (Int_part (- x)).

(** [min_samples_leaf] (JPT.py:135-143). *)
Definition min_samples_leaf (j : jpt) : R :=
  if Rltb (raw_min_samples_leaf j) 1 then ceil (raw_min_samples_leaf j * INR (total_samples j)) else raw_min_samples_leaf j.

(** [empty_copy] (JPT.py:375-383). *)
Definition empty_copy (j : jpt) : jpt :=
  init (variables_from_init j) (Some (targets j)) (Some (features j)) (min_samples_leaf j) (min_impurity_improvement j) PInf (max_depth j) (Some (dependencies j)).

(** The part of [to_json] that the class adds (JPT.py:385-396); a variable's JSON keeps all of the variable. *)
Record json := mkJson {
  js_variables : list (nat * jkind);
  js_targets : list nat;
  js_features : list nat;
  js_min_samples_leaf : R;
  js_min_impurity_improvement : R;
  js_max_leaves : num;
  js_max_depth : num;
  js_dependencies : list (nat * list nat);
  js_total_samples : nat
}.
Definition to_json (j : jpt) : json :=
  mkJson (variables_from_init j) (targets j) (features j) (raw_min_samples_leaf j) (min_impurity_improvement j) (max_leaves j) (max_depth j)
    (dependencies j) (total_samples j).

(** [name_to_variable_map[name]]: a KeyError for other names. *)
Definition lookup_name (vs : list (nat * jkind)) (v : nat) : option nat := if existsb (Nat.eqb v) (map fst vs) then Some v else None.

(** [parameters_from_json] (JPT.py:398-415). *)
Definition parameters_from_json (d : json) : option jpt :=
  let find := lookup_name (js_variables d) in
  match mapM find (js_targets d), mapM find (js_features d),
    mapM (fun vl => match find (fst vl), mapM find (snd vl) with Some v, Some l => Some (v, l) | _, _ => None end) (js_dependencies d) with
  | Some t, Some f, Some deps =>
      let j := init (js_variables d) (Some t) (Some f) (js_min_samples_leaf d) (js_min_impurity_improvement d) (js_max_leaves d) (js_max_depth d) (Some deps) in
      Some (mkJpt (variables_from_init j) (targets j) (features j) (raw_min_samples_leaf j) (min_impurity_improvement j) (max_leaves j) (max_depth j)
              (dependencies j) (js_total_samples d))
  | _, _, _ => None
  end.

(** [ScaledContinuous.encode] and [decode] (VAR.py:169-173). *)
Definition encode (mean std : R) (x : num) : num := ndiv (nsub x (Fin mean)) (Fin std).
Definition decode (mean std : R) (z : num) : num := nadd (nmul z (Fin std)) (Fin mean).

(** ** Induction *)

Definition row := list R.

(** An entry of [c45queue] (JPT.py:206, 253-254). *)
Record item := mkItem { i_data : list row; i_start : nat; i_end : nat; i_depth : nat }.

(** A child of the root: its log weight, its unit, the numbers of its samples ([sample_indices]) and the depth at which the
    induction stopped. *)
Record leaf := mkLeaf { l_weight : num; l_unit : pc dist; l_samples : list nat; l_depth : nat }.

(** [l[a:b]]. *)
Definition slice {A} (l : list A) (a b : nat) : list A := firstn (b - a) (skipn a l).

(** [a <= b] and [a >= b] of floats; comparisons with NaN are false. *)
Definition nleb (a b : num) : bool :=
  match a, b with
  | NaN, _ | _, NaN => false
  | NInf, _ | _, PInf => true
  | Fin x, Fin y => Rleb x y
  | _, _ => false
  end.
Definition ngeb (a b : num) : bool := nleb b a.

Section Fit.
Variable best : list nat -> nat -> nat -> num * nat * list nat.
Variable create_leaf_node : list row -> option (pc dist).
Variable j : jpt.

(** [c45] (JPT.py:213-254): the queue, the index array and the root's children afterwards; None for an exception.  The index
    array and the impurity are those of the JPT that is fitted, the data are those of the queue entry. *)
Definition c45 (it : item) (queue : list item) (indices : list nat) (leaves : list leaf) : option (list item * list nat * list leaf) :=
  let n := (i_end it - i_start it)%nat in
  let '(max_gain, split_pos, indices') :=
    if ngeb (Fin (INR (i_depth it))) (max_depth j) || Rltb (INR n) (2 * min_samples_leaf j) then (NInf, 0%nat, indices)
    else best indices (i_start it) (i_end it) in
  if nleb max_gain (Fin (min_impurity_improvement j)) then
    let samples := slice indices' (i_start it) (i_end it) in
    match mapM (nth_error (i_data it)) samples with
    | None => None
    | Some rows =>
        match create_leaf_node rows with
        | None => None
        | Some u =>
            if (length (i_data it) =? 0)%nat then None
            else Some (queue, indices', leaves ++ [mkLeaf (nlog (Fin (INR n / INR (length (i_data it))))) u samples (i_depth it)])
        end
    end
  else
    let middle := (i_start it + split_pos + 1)%nat in
    Some (queue ++ [mkItem (i_data it) (i_start it) middle (S (i_depth it)); mkItem (i_data it) middle (i_end it) (S (i_depth it))], indices', leaves).

(** The loop of [fit] (JPT.py:208-209).  Returns what is left in the queue and, if the loop ended, the root's children.
    Running out of [fuel] stands for an interruption between two steps. *)
Fixpoint fit_loop (fuel : nat) (queue : list item) (indices : list nat) (leaves : list leaf) : list item * option (list leaf) :=
  match queue with
  | [] => ([], Some leaves)
  | it :: queue' =>
      match fuel with
      | O => (queue, None)
      | S fuel' =>
          match c45 it queue' indices leaves with
          | None => (queue', None)
          | Some (q, ix, ls) => fit_loop fuel' q ix ls
          end
      end
  end.
End Fit.

(** [fit] (JPT.py:190-211) on the queue [shared] that all JPTs have in common (JPT.py:67).  [self.total_samples] is set before
    the loop, so [min_samples_leaf] refers to the new data. *)
Definition with_total (j : jpt) (n : nat) : jpt :=
  mkJpt (variables_from_init j) (targets j) (features j) (raw_min_samples_leaf j) (min_impurity_improvement j) (max_leaves j) (max_depth j) (dependencies j) n.

Definition fit best create (j : jpt) (fuel : nat) (data : list row) (shared : list item) : list item * option (list leaf) :=
  fit_loop best create (with_total j (length data)) fuel (shared ++ [mkItem data 0 (length data) 0]) (seq 0 (length data)) [].

(** The circuit of a fitted JPT: one sum unit over the leaves. *)
Definition circuit_of (ls : list leaf) : graph dist := layout (PSum (map (fun l => (l_weight l, l_unit l)) ls)).

(** ** Leaves *)

(** The root of a fitted Nyga distribution with the units below it. *)
Definition nyga_root (g : graph dist) : option (pc dist) :=
  match root g with
  | None => None
  | Some r =>
      match node_kind g r with
      | Some (ULeaf d) => Some (PLeaf d)
      | Some USum =>
          option_map PSum (mapM (fun e => match e_lw e, node_kind g (e_dst e) with Some w, Some (ULeaf d) => Some (w, PLeaf d) | _, _ => None end) (out_edges g r))
      | _ => None
      end
  end.

(** [create_leaf_node] (JPT.py:256-291) for one variable and its column.  The test for a Dirac distribution (JPT.py:275) is
    applied to the unit and not to its distribution, so it never holds and the density cap stays infinite. *)
Definition fit_column (fuel : nat) (v : nat) (k : jkind) (column : list R) : option (pc dist) :=
  match k with
  | KContinuous _ imp q =>
      match Nyga.fit v q imp fuel column None with
      | None => None
      | Some g => nyga_root g
      end
  | KSymbolic h => Some (PLeaf (DSym v (dfit h (map Int_part column))))
  | KInteger => Some (PLeaf (DInt v (dfit pyhash (map Int_part column))))
  end.

(** [data[:, index]]. *)
Definition column (rows : list row) (i : nat) : option (list R) := mapM (fun r => nth_error r i) rows.

Definition create_leaf_node (fuel : nat) (vars : list (nat * jkind)) (rows : list row) : option (pc dist) :=
  option_map PProd (mapM (fun iv => match column rows (fst iv) with
                                    | None => None
                                    | Some c => fit_column fuel (fst (snd iv)) (snd (snd iv)) c
                                    end) (combine (seq 0 (length vars)) vars)).
