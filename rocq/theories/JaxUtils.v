(** * JaxUtils: index helpers of the layered circuits

    Source: /repo/src/probabilistic_model/probabilistic_circuit/jax/utils.py (U.py).

    Simplifications: arrays are lists (a matrix is the list of its rows), integers do not overflow, and a sparse matrix in
    coordinate format is its shape and the list of its entries.  None stands for an exception. *)
From Coq Require Import List Arith Bool Lia ZArith.
Import ListNotations.
Local Open Scope nat_scope.

(** [np.repeat(a, counts)]; the two arrays must have the same length. *)
Definition np_repeat {A} (a : list A) (counts : list nat) : option (list A) :=
  if length a =? length counts then Some (concat (map (fun xc => repeat (fst xc) (snd xc)) (combine a counts))) else None.

(** [a[:-1]]. *)
Definition but_last {A} (l : list A) : list A := firstn (length l - 1) l.

(** [a - b] of two arrays of the same length. *)
Definition array_sub (a b : list nat) : option (list Z) :=
  if length a =? length b then Some (map (fun xy => (Z.of_nat (fst xy) - Z.of_nat (snd xy))%Z) (combine a b)) else None.

(** [create_bcoo_indices_from_row_lengths] (U.py:30-66): pairs of row and column.  In spite of its name [cum_sum] is the
    repeated array of offset row lengths; nothing is summed (U.py:57-58). *)
Definition bcoo_indices (row_lengths : list nat) : option (list (nat * Z)) :=
  match np_repeat (seq 0 (length row_lengths)) row_lengths, np_repeat (0 :: but_last row_lengths) row_lengths with
  | Some row_indices, Some cum_sum =>
      match array_sub (seq 0 (list_sum row_lengths)) cum_sum with
      | Some col_indices => Some (combine row_indices col_indices)
      | None => None
      end
  | _, _ => None
  end.

(** [create_bcoo_indices_from_row_lengths_np] (U.py:68-104): the same computation; the result keeps the array of rows and the array of
    columns below each other. *)
Definition bcoo_indices_np (row_lengths : list nat) : option (list nat * list Z) :=
  match np_repeat (seq 0 (length row_lengths)) row_lengths, np_repeat (0 :: but_last row_lengths) row_lengths with
  | Some row_indices, Some cum_sum =>
      match array_sub (seq 0 (list_sum row_lengths)) cum_sum with
      | Some col_indices => if length row_indices =? length col_indices then Some (row_indices, col_indices) else None
      | None => None
      end
  | _, _ => None
  end.

(** [jnp.cumsum]. *)
Fixpoint cumsum_from (acc : nat) (l : list nat) : list nat :=
  match l with
  | [] => []
  | x :: l' => (acc + x) :: cumsum_from (acc + x) l'
  end.

(** [create_bcsr_indices_from_row_lengths] (U.py:107-137): the column indices and the indent pointer. *)
Definition bcsr_indices (row_lengths : list nat) : option (list Z * list nat) :=
  match np_repeat (0 :: but_last row_lengths) row_lengths with
  | Some cum_sum =>
      match array_sub (seq 0 (list_sum row_lengths)) cum_sum with
      | Some col_indices => Some (col_indices, 0 :: cumsum_from 0 row_lengths)
      | None => None
      end
  | None => None
  end.

(** ** Shrinking *)

(** [jnp.unique] of a vector: its distinct elements in ascending order. *)
Fixpoint zinsert (x : Z) (l : list Z) : list Z :=
  match l with
  | [] => [x]
  | y :: l' => if (x <? y)%Z then x :: l else if (x =? y)%Z then l else y :: zinsert x l'
  end.
Definition unique (l : list Z) : list Z := fold_right zinsert [] l.

(** [result.at[result[:, dim] == unique_index, dim].set(new_index)] on the column of [dim] (U.py:205). *)
Definition relabel (new_index : nat) (unique_index : Z) (column : list Z) : list Z :=
  map (fun x => if (x =? unique_index)%Z then Z.of_nat new_index else x) column.

(** The inner loop of [shrink_index_array] (U.py:204-205) over [zip(range(len(unique_indices)), unique_indices)]. *)
Fixpoint relabel_all (new_index : nat) (unique_indices : list Z) (column : list Z) : list Z :=
  match unique_indices with
  | [] => column
  | u :: us => relabel_all (S new_index) us (relabel new_index u column)
  end.

(** [shrink_index_array] (U.py:185-208).  The array is given by its columns; the loop over [dim] treats each column on its
    own. *)
Definition shrink_column (column : list Z) : list Z := relabel_all 0 (unique column) column.
Definition shrink_index_array (columns : list (list Z)) : list (list Z) := map shrink_column columns.

(** ** Removing rows and columns *)

(** A sparse matrix in coordinate format. *)
Record coo (A : Type) := mkCoo { c_rows : nat; c_cols : nat; c_entries : list (Z * Z * A) }.
Arguments mkCoo {A}. Arguments c_rows {A}. Arguments c_cols {A}. Arguments c_entries {A}.

(** [jnp.max] of a vector; an error for an empty one. *)
Definition zmax (l : list Z) : option Z :=
  match l with
  | [] => None
  | x :: l' => Some (fold_left Z.max l' x)
  end.

(** [sparse_remove_rows_and_cols_where_all] (U.py:211-240); [differs] tells whether a stored value is different from the
    value to remove. *)
Definition sparse_remove {A} (differs : A -> bool) (m : coo A) : option (coo A) :=
  let valid := filter (fun e => differs (snd e)) (c_entries m) in
  let rows := shrink_column (map (fun e => fst (fst e)) valid) in
  let cols := shrink_column (map (fun e => snd (fst e)) valid) in
  match zmax rows, zmax cols with
  | Some r, Some c => Some (mkCoo (Z.to_nat (r + 1)) (Z.to_nat (c + 1)) (combine (combine rows cols) (map snd valid)))
  | _, _ => None
  end.

(** [remove_rows_and_cols_where_all] (U.py:161-183) on a dense matrix of the given number of columns. *)
Definition dense_remove {A} (differs : A -> bool) (cols : nat) (m : list (list A)) : list (list A) :=
  let valid_rows := map (fun row => existsb differs row) m in
  let valid_cols := map (fun c => existsb (fun row => match nth_error row c with Some x => differs x | None => false end) m) (seq 0 cols) in
  let keep {B} (mask : list bool) (l : list B) := map snd (filter fst (combine mask l)) in
  map (keep valid_cols) (keep valid_rows m).

(** ** Embedding *)

(** The position that an index of jax stands for: negative indices count from the end; None if it is out of bounds. *)
Definition jax_index (n : nat) (i : Z) : option nat :=
  let j := if (i <? 0)%Z then (i + Z.of_nat n)%Z else i in
  if (0 <=? j)%Z && (j <? Z.of_nat n)%Z then Some (Z.to_nat j) else None.

(** [l[i] = x]. *)
Fixpoint set_at {A} (i : nat) (x : A) (l : list A) : list A :=
  match i, l with
  | _, [] => []
  | 0, _ :: l' => x :: l'
  | S j, y :: l' => y :: set_at j x l'
  end.

(** One update of [result.at[i, j].set(x)]; jax drops updates that are out of bounds. *)
Definition at_set {A} (rows cols : nat) (m : list (list A)) (i j : Z) (x : A) : list (list A) :=
  match jax_index rows i, jax_index cols j with
  | Some r, Some c => match nth_error m r with Some row => set_at r (set_at c x row) m | None => m end
  | _, _ => m
  end.

(** [embed_sparse_array_in_nan_array] (U.py:140-143); None is nan.  Several values for one position are written one after the
    other (jax leaves the order open). *)
Definition embed {A} (m : coo A) : list (list (option A)) :=
  fold_left (fun acc e => at_set (c_rows m) (c_cols m) acc (fst (fst e)) (snd (fst e)) (Some (snd e))) (c_entries m)
    (repeat (repeat None (c_cols m)) (c_rows m)).
