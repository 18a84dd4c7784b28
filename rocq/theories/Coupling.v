(** * Coupling: circuits with generated parameters

    Source: /repo/src/probabilistic_model/probabilistic_circuit/jax/coupling_circuit.py (CC.py) and inner_layer.py (IL.py).

    Simplifications: a parameter array is a vector or a matrix; numbers are idealised floats.  The parameters of a layer are
    its inexact arrays that are not static fields ([eqx.partition(self, eqx.is_inexact_array)], IL.py:170-176): locations and
    log scales of Gaussian layers (GL.py:23-25), the matrix of discrete layers (DL.py:25), the log weights of sum layers
    (IL.py:308, 446; a BCOO array contributes its data).  Intervals, Dirac locations and density caps, minimal scales and
    product edges are static (IN.py:35, 92, 97, GL.py:25, IL.py:551).  [tree_flatten] goes through the fields in their order,
    child layers (IL.py:201) before log weights.  A rebuilt object whose arrays have another rank or, for sparse weights,
    another length than the indices, is no layer: None. *)
From Coq Require Import List Arith Bool Reals.
From Verif Require Import Num Graph Circuit JaxLayer.
Import ListNotations.
Local Open Scope nat_scope.

Inductive array := A1 (x : list num) | A2 (rows : list (list num)).

(** [len] of an array is the length of its first axis. *)
Definition len (a : array) : nat := match a with A1 x => length x | A2 rows => length rows end.

(** [tree_flatten(self.partition()[0])[0]]. *)
Definition dense_array (w : dense) : array := A2 (map (fun r => map (d_at w r) (seq 0 (d_cols w))) (seq 0 (d_rows w))).
Fixpoint flatten (L : layer) : list array :=
  match L with
  | LInput _ (IGauss loc ls _) => [A1 (map Fin loc); A1 (map Fin ls)]
  | LInput _ (IDiscrete ps) => [A2 ps]
  | LInput _ _ => []
  | LSparse ws cs => concat (map flatten cs) ++ map (fun w => A1 (map snd (s_entries w))) ws
  | LDense ws cs => concat (map flatten cs) ++ map dense_array ws
  | LProd _ cs => concat (map flatten cs)
  end.

(** [number_of_trainable_parameters] (IL.py:178-186). *)
Definition number_of_trainable_parameters (L : layer) : nat := list_sum (map len (flatten L)).

(** [slices_of_parameters_for_flat_model] (CC.py:77-96). *)
Fixpoint slices_from (offset : nat) (flat : list array) : list (nat * nat) :=
  match flat with
  | [] => []
  | leaf :: flat' => (offset, offset + len leaf) :: slices_from (offset + len leaf) flat'
  end.
Definition slices (L : layer) : list (nat * nat) := slices_from 0 (flatten L).

(** [params[start:end]] of a vector; beyond the end there is nothing. *)
Definition slice (params : list num) (s : nat * nat) : list num := firstn (snd s - fst s) (skipn (fst s) params).

(** [tree_unflatten] and [eqx.combine] (CC.py:115-119). *)
Definition reals (x : list num) : option (list R) := mapM (fun a => match a with Fin r => Some r | _ => None end) x.
Definition fill_sparse (w : sparse num) (x : list num) : option (sparse num) :=
  if length x =? length (s_entries w) then Some (mkSparse (s_rows w) (s_cols w) (combine (map fst (s_entries w)) x)) else None.
Fixpoint fill_all {W} (fill : W -> array -> option W) (ws : list W) (flat : list array) : option (list W * list array) :=
  match ws with
  | [] => Some ([], flat)
  | w :: ws' =>
      match flat with
      | [] => None
      | a :: flat' =>
          match fill w a, fill_all fill ws' flat' with
          | Some w', Some (ws'', rest) => Some (w' :: ws'', rest)
          | _, _ => None
          end
      end
  end.
Fixpoint rebuild (L : layer) (flat : list array) {struct L} : option (layer * list array) :=
  let all := fix all (cs : list layer) (flat : list array) : option (list layer * list array) :=
    match cs with
    | [] => Some ([], flat)
    | c :: cs' =>
        match rebuild c flat with
        | None => None
        | Some (c', flat1) => match all cs' flat1 with None => None | Some (cs'', flat2) => Some (c' :: cs'', flat2) end
        end
    end in
  match L with
  | LInput v (IGauss loc ls ms) =>
      match flat with
      | A1 x :: A1 y :: rest => match reals x, reals y with Some x', Some y' => Some (LInput v (IGauss x' y' ms), rest) | _, _ => None end
      | _ => None
      end
  | LInput v (IDiscrete ps) => match flat with A2 rows :: rest => Some (LInput v (IDiscrete rows), rest) | _ => None end
  | LInput v i => Some (LInput v i, flat)
  | LSparse ws cs =>
      match all cs flat with
      | None => None
      | Some (cs', flat1) =>
          match fill_all (fun w a => match a with A1 x => fill_sparse w x | A2 _ => None end) ws flat1 with
          | None => None | Some (ws', rest) => Some (LSparse ws' cs', rest)
          end
      end
  | LDense ws cs =>
      match all cs flat with
      | None => None
      | Some (cs', flat1) =>
          match fill_all (fun w a => match a with A1 _ => None | A2 rows => Some (mkDense (length rows) (d_cols w) (fun r c => nth c (nth r rows []) NaN)) end) ws flat1 with
          | None => None | Some (ws', rest) => Some (LDense ws' cs', rest)
          end
      end
  | LProd edges cs => match all cs flat with None => None | Some (cs', rest) => Some (LProd edges cs', rest) end
  end.

(** [create_circuit_from_parameters] (CC.py:99-120); every slice of a vector is a vector. *)
Definition create_circuit_from_parameters (L : layer) (params : list num) : option layer :=
  match rebuild L (map (fun s => A1 (slice params s)) (slices L)) with Some (L', []) => Some L' | _ => None end.

(** [conditional_log_likelihood_single] (CC.py:122-131); [generate] is the conditioner. *)
Definition conditional_log_likelihood_single (generate : list R -> list num) (conditioner_columns : list nat) (L : layer) (circuit_columns : list nat) (x : list R) : option (list num) :=
  match select x conditioner_columns, select x circuit_columns with
  | Some given, Some point => match create_circuit_from_parameters L (generate given) with None => None | Some C => ll C point end
  | _, _ => None
  end.

(** [validate] (CC.py:136-141) without the check of the circuit itself. *)
Definition matches (output_length : nat) (L : layer) : bool := number_of_trainable_parameters L =? output_length.
