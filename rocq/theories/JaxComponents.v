(** * JaxComponents: the size of a layered circuit

    Source: /repo/src/probabilistic_model/probabilistic_circuit/jax/inner_layer.py (IL.py): [number_of_components] (188-193, 314-316,
    455-458, 587-589) and [all_layers_with_depth] (93-97, 226-233).

    Simplifications: as in JaxLayer.v; the number of stored elements of a sparse matrix is the number of its entries. *)
From Coq Require Import List Arith.
From Verif Require Import Num JaxLayer.
Import ListNotations.

Definition total (l : list nat) : nat := fold_right Nat.add 0 l.

(** [number_of_components] (IL.py:188-193, 314-316, 455-458, 587-589). *)
Fixpoint number_of_components (L : layer) : nat :=
  match L with
  | LInput _ _ => number_of_nodes L
  | LSparse ws cs => total (map number_of_components cs) + total (map (fun w => length (s_entries w)) ws)
  | LDense ws cs => total (map number_of_components cs) + total (map (fun w => d_rows w * d_cols w) ws)
  | LProd edges cs => total (map number_of_components cs) + length (s_entries edges)
  end.

(** [all_layers_with_depth] (IL.py:93-97, 226-233). *)
Fixpoint all_layers_with_depth (depth : nat) (L : layer) : list (nat * layer) :=
  (depth, L) :: match L with
                | LInput _ _ => []
                | LSparse _ cs | LDense _ cs | LProd _ cs => concat (map (all_layers_with_depth (S depth)) cs)
                end.
