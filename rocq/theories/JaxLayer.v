(** * JaxLayer: layered circuits

    Source: /repo/src/probabilistic_model/probabilistic_circuit/jax/inner_layer.py (IL.py), input_layer.py (IN.py),
    gaussian_layer.py (GL.py), uniform_layer.py (UL.py) and discrete_layer.py (DL.py).

    Simplifications: numbers are idealised (Num.v); a vector is a list.  Indices are natural numbers.  As in JAX, reading
    beyond the end of a vector yields its last element and writing there is dropped.  Layers are trees: a layer object that
    occurs twice is represented twice.  Arithmetic on arrays whose shapes do not match raises; JAX stretches dimensions of
    size one, which is represented only where the code relies on it.  None stands for an exception. *)
From Coq Require Import List Arith Bool Lia Reals ZArith.
From Verif Require Import Num Graph Circuit Interval Dist.
Import ListNotations.
Local Open Scope nat_scope.

(** A sparse matrix (BCOO) and a dense one, both of rank two. *)
Record sparse (A : Type) := mkSparse { s_rows : nat; s_cols : nat; s_entries : list (nat * nat * A) }.
Arguments mkSparse {A}. Arguments s_rows {A}. Arguments s_cols {A}. Arguments s_entries {A}.
Record dense := mkDense { d_rows : nat; d_cols : nat; d_at : nat -> nat -> num }.

(** Input layers: GaussianLayer (GL.py:18), DiscreteLayer (DL.py:24), UniformLayer (UL.py:20), DiracDeltaLayer (IN.py:85). *)
Inductive input :=
| IGauss (location log_scale min_scale : list R)
| IDiscrete (log_probabilities : list (list num))
| IUniform (interval : list (R * R))
| IDirac (location : list R) (density_cap : list num).

(** SparseSumLayer (IL.py:297), DenseSumLayer (IL.py:442), ProductLayer (IL.py:540). *)
Inductive layer :=
| LInput (v : nat) (i : input)
| LSparse (log_weights : list (sparse num)) (cs : list layer)
| LDense (log_weights : list dense) (cs : list layer)
| LProd (edges : sparse nat) (cs : list layer).

(** [number_of_nodes] (GL.py:44-46, DL.py:50-52, UL.py:32-34, IN.py:110-112, IL.py:292-294, 578-580).  A sum layer without
    weights raises; it has no nodes here. *)
Definition input_nodes (i : input) : nat :=
  match i with
  | IGauss loc _ _ => length loc
  | IDiscrete ps => length ps
  | IUniform is => length is
  | IDirac loc _ => length loc
  end.
Definition number_of_nodes (L : layer) : nat :=
  match L with
  | LInput _ i => input_nodes i
  | LSparse ws _ => match ws with w :: _ => s_rows w | [] => 0 end
  | LDense ws _ => match ws with w :: _ => d_rows w | [] => 0 end
  | LProd edges _ => s_cols edges
  end.

(** [variables] (IL.py:244-246, 286-290, 590-596): those of the first child for a sum layer, the sorted distinct variables of
    all children for a product layer. *)
Fixpoint variables (L : layer) : list nat :=
  match L with
  | LInput v _ => [v]
  | LSparse _ cs | LDense _ cs => match cs with c :: _ => variables c | [] => [] end
  | LProd _ cs => sset_of (concat (map variables cs))
  end.

(** ** Arrays *)

(** [a[i]]: clamped to the last element. *)
Definition gather {A} (a : list A) (i : nat) : option A := nth_error a (min i (length a - 1)).

(** [result.at[i].add(v)]: dropped if out of bounds. *)
Fixpoint add_at (i : nat) (v : num) (l : list num) : list num :=
  match l, i with
  | [], _ => []
  | x :: l', O => nadd x v :: l'
  | x :: l', S i' => x :: add_at i' v l'
  end.
Definition scatter_add (result : list num) (updates : list (nat * num)) : list num :=
  fold_left (fun r iv => add_at (fst iv) (snd iv) r) updates result.

(** [jnp.max] of a non-empty vector: NaN wins. *)
Definition nmax (a b : num) : num :=
  match a, b with
  | NaN, _ | _, NaN => NaN
  | NInf, x | x, NInf => x
  | PInf, _ | _, PInf => PInf
  | Fin x, Fin y => Fin (Rmax x y)
  end.
Definition maximum (l : list num) : option num := match l with [] => None | x :: l' => Some (fold_left nmax l' x) end.

(** Elementwise operation on two vectors of the same length. *)
Definition zip_with {A B C} (f : A -> B -> C) (a : list A) (b : list B) : option (list C) :=
  if length a =? length b then Some (map (fun xy => f (fst xy) (snd xy)) (combine a b)) else None.

(** ** Input layers *)

(** [x.astype(int)] truncates. *)
Definition astype_int (x : R) : Z := if Rltb x 0 then (- Int_part (- x))%Z else Int_part x.
(** [a[:, i]] on one row; negative indices count from the end. *)
Definition gatherZ {A} (a : list A) (i : Z) : option A :=
  gather a (Z.to_nat (if (i <? 0)%Z then i + Z.of_nat (length a) else i)).

(** [normalized_log_probabilities] (DL.py:42-48) of one row. *)
Definition normalized_log_probabilities (row : list num) : list num := map (fun p => nsub p (logsumexp row)) row.

(** [GaussianLayer.scale] (GL.py:48-50). *)
Definition scales (log_scale min_scale : list R) : option (list R) := zip_with (fun l m => (exp l + m)%R) log_scale min_scale.

(** [log_likelihood_of_nodes_single] of input layers (GL.py:52-53, DL.py:54-55, UL.py:42-43, IN.py:117-118) on a vector of one
    element, as product layers pass it.  [jax.scipy.stats.norm.logpdf] is the exact density. *)
Definition input_ll (i : input) (x : R) : option (list num) :=
  match i with
  | IGauss loc ls ms =>
      match scales ls ms with
      | None => None
      | Some sc => zip_with (fun l s => gauss_logpdf l s x) loc sc
      end
  | IDiscrete ps => mapM (fun row => gatherZ (normalized_log_probabilities row) (astype_int x)) ps
  | IUniform is => Some (map (fun ab => if Rltb (fst ab) x && Rltb x (snd ab) then nopp (nlog (Fin (snd ab - fst ab))) else NInf) is)
  | IDirac loc cap => zip_with (fun l c => if Reqb x l then nlog c else NInf) loc cap
  end.

(** ** Sum layers *)

(** [log_normalization_constants] of a sparse sum layer (IL.py:317-323); the concatenated weights (IL.py:310-315) have the
    entries of all matrices. *)
Definition all_entries (ws : list (sparse num)) : list (nat * nat * num) := concat (map s_entries ws).
Definition sparse_log_constants (n : nat) (ws : list (sparse num)) : option (list num) :=
  match maximum (map snd (all_entries ws)) with
  | None => None
  | Some mx =>
      let sums := scatter_add (repeat (Fin 0) n) (map (fun e => (fst (fst e), nexp (nsub (snd e) mx))) (all_entries ws)) in
      Some (map (fun s => nadd mx (nlog s)) sums)
  end.

(** [normalized_weights] (IL.py:325-332): the entries with their normalised weights. *)
Definition sparse_normalized_weights (n : nat) (ws : list (sparse num)) : option (list (nat * nat * num)) :=
  match sparse_log_constants n ws with
  | None => None
  | Some z => mapM (fun e => match gather z (fst (fst e)) with None => None | Some zi => Some (fst e, nexp (nsub (snd e) zi)) end) (all_entries ws)
  end.

(** One child layer of a sparse sum layer (IL.py:337-350): what is added to which node. *)
Definition sparse_updates (w : sparse num) (child : list num) : option (list (nat * num)) :=
  mapM (fun e => match gather child (snd (fst e)) with None => None | Some l => Some (fst (fst e), nexp (nadd (snd e) l)) end) (s_entries w).

(** Row [r] of a dense matrix. *)
Definition dense_row (w : dense) (r : nat) : list num := map (d_at w r) (seq 0 (d_cols w)).

(** [log_normalization_constants] of a dense sum layer (IL.py:465-474). *)
Definition dense_log_constants (n : nat) (ws : list dense) : list num :=
  map (fun r => logsumexp (concat (map (fun w => dense_row w r) ws))) (seq 0 n).

(** One child layer of a dense sum layer (IL.py:486-493). *)
Definition dense_part (w : dense) (child : list num) : option (list num) :=
  if length child =? d_cols w
  then Some (map (fun r => nexp (logsumexp (map (fun xl => nadd (fst xl) (snd xl)) (combine (dense_row w r) child)))) (seq 0 (d_rows w)))
  else None.

(** ** Evaluation *)

(** [x[layer.variables]]. *)
Definition select (x : list R) (vs : list nat) : option (list R) := mapM (gather x) vs.

(** Row [r] of the edges of a product layer: pairs of node and child node. *)
Definition edge_row (edges : sparse nat) (r : nat) : list (nat * nat) :=
  map (fun e => (snd (fst e), snd e)) (filter (fun e => fst (fst e) =? r) (s_entries edges)).

(** The loop of a product layer (IL.py:602-610) over [zip(self.edges, self.child_layers)]; [children] yields the
    log-likelihoods of the child layers, [r] is the number of the current row. *)
Fixpoint prod_loop (edges : sparse nat) (r : nat) (children : list (option (list num))) (result : list num) : option (list num) :=
  match children with
  | [] => Some result
  | c :: cs =>
      if r <? s_rows edges then
        match c with
        | None => None
        | Some lls =>
            match mapM (fun nc => match gather lls (snd nc) with None => None | Some l => Some (fst nc, l) end) (edge_row edges r) with
            | None => None
            | Some updates => prod_loop edges (S r) cs (scatter_add result updates)
            end
        end
      else Some result
  end.

(** The loops of the sum layers (IL.py:337-350, 486-493) over [zip(self.log_weights, self.child_layers)]. *)
Fixpoint sparse_loop (ws : list (sparse num)) (children : list (option (list num))) (result : list num) : option (list num) :=
  match ws, children with
  | w :: ws', c :: cs =>
      match c with
      | None => None
      | Some lls => match sparse_updates w lls with None => None | Some u => sparse_loop ws' cs (scatter_add result u) end
      end
  | _, _ => Some result
  end.
Fixpoint dense_loop (ws : list dense) (children : list (option (list num))) (result : list num) : option (list num) :=
  match ws, children with
  | w :: ws', c :: cs =>
      match c with
      | None => None
      | Some lls =>
          match dense_part w lls with
          | None => None
          | Some p => match zip_with nadd result p with None => None | Some r => dense_loop ws' cs r end
          end
      end
  | _, _ => Some result
  end.

(** The nodes of a sum layer from the log-likelihoods of the child layers (IL.py:334-352, 483-495). *)
Definition sparse_ll (ws : list (sparse num)) (children : list (option (list num))) : option (list num) :=
  match ws with
  | [] => None
  | w :: _ =>
      let n := s_rows w in
      match sparse_loop ws children (repeat (Fin 0) n), sparse_log_constants n ws with
      | Some result, Some z => zip_with (fun r z => nsub (nlog r) z) result z
      | _, _ => None
      end
  end.
Definition dense_ll (ws : list dense) (children : list (option (list num))) : option (list num) :=
  match ws with
  | [] => None
  | w :: _ =>
      let n := d_rows w in
      match dense_loop ws children (repeat (Fin 0) n) with
      | Some result => zip_with (fun r z => nsub (nlog r) z) result (dense_log_constants n ws)
      | None => None
      end
  end.

(** [log_likelihood_of_nodes_single] (IL.py:334-352, 483-495, 599-612).  A product layer hands each child the columns of the
    child's variables; a sum layer hands on what it gets. *)
Fixpoint ll (L : layer) (x : list R) {struct L} : option (list num) :=
  match L with
  | LInput _ i => match x with [a] => input_ll i a | _ => None end
  | LSparse ws cs => sparse_ll ws (map (fun c => ll c x) cs)
  | LDense ws cs => dense_ll ws (map (fun c => ll c x) cs)
  | LProd edges cs =>
      prod_loop edges 0 (map (fun c => match select x (variables c) with None => None | Some x' => ll c x' end) cs) (repeat (Fin 0) (s_cols edges))
  end.

(** ** Validation *)

Definition list_eqb (a b : list nat) : bool := (length a =? length b) && forallb (fun xy => fst xy =? snd xy) (combine a b).

(** [validate] (IL.py:269-277, 572-575, GL.py:39-42, UL.py:28-29, IN.py:107-108, DL.py:38-39); each checks one layer only.
    True: it passes. *)
Definition validate (L : layer) : bool :=
  match L with
  | LInput _ (IGauss loc ls ms) => (length loc =? length ls) && (length ms =? length ls) && forallb (fun m => Rleb 0 m) ms
  | LInput _ (IDirac loc cap) => length loc =? length cap
  | LInput _ _ => true
  | LSparse ws cs =>
      negb (length ws =? 0) && forallb (fun w => s_rows w =? number_of_nodes L) ws &&
      forallb (fun wc => (s_cols (fst wc) =? number_of_nodes (snd wc)) && list_eqb (variables (snd wc)) (variables L)) (combine ws cs)
  | LDense ws cs =>
      negb (length ws =? 0) && forallb (fun w => d_rows w =? number_of_nodes L) ws &&
      forallb (fun wc => (d_cols (fst wc) =? number_of_nodes (snd wc)) && list_eqb (variables (snd wc)) (variables L)) (combine ws cs)
  | LProd edges cs => s_rows edges =? length cs
  end.

(** [all_layers] (IL.py:90-94, 213-220). *)
Fixpoint all_layers (L : layer) : list layer :=
  L :: match L with LInput _ _ => [] | LSparse _ cs | LDense _ cs | LProd _ cs => concat (map all_layers cs) end.
