(** * JaxToNx: layered circuits as networkx circuits

    Source: /repo/src/probabilistic_model/probabilistic_circuit/jax/inner_layer.py (IL.py), input_layer.py (IN.py),
    gaussian_layer.py (GL.py), uniform_layer.py (UL.py), discrete_layer.py (DL.py), probabilistic_circuit.py (JPC.py).

    Simplifications: a variable is its position in the sorted set of the variables of the circuit, [n] is their number.
    Units are numbered in the order in which they enter the circuit.  [.item()] is exact.  The progress bar is only known to
    be there or not.  None stands for an exception. *)
From Coq Require Import List Arith Bool Lia Reals ZArith.
From Verif Require Import Num Graph Circuit Interval Dist Simplify JaxLayer.
Import ListNotations.
Local Open Scope nat_scope.

(** New units in the circuit [result]; their identity is their number. *)
Definition add_units (ks : list (ukind dist)) (g : graph dist) : graph dist * list id :=
  (mkGraph (g_nodes g ++ combine (seq (length (g_nodes g)) (length ks)) ks) (g_edges g), seq (length (g_nodes g)) (length ks)).

(** The leaves of an input layer (GL.py:90-93, DL.py:93-95, UL.py:72-79, IN.py:157-158). *)
Definition leaves (v : nat) (i : input) : list dist :=
  match i with
  | IGauss loc ls ms => map (fun ls => DGauss v (fst ls) (snd ls)) (combine loc (map (fun lm => (exp (fst lm) + snd lm)%R) (combine ls ms)))
  | IDiscrete ps => map (fun row => DSym v (combine (map Z.of_nat (seq 0 (length row))) (map (fun p => match nexp p with Fin x => x | _ => 0%R end) row))) (map normalized_log_probabilities ps)
  | IUniform is => map (fun ab => DUnif v (iopen (fst ab) (snd ab))) is
  | IDirac loc cap => map (fun lc => DDirac v (fst lc) (snd lc)) (combine loc cap)
  end.

(** [units[row].add_subcircuit(child_layer[col], log_weight, False)] (IL.py:433, 526) and the unweighted one (IL.py:682).
    Both index Python lists, which raises IndexError beyond the end. *)
Definition connect (units child : list id) (g : graph dist) (e : nat * nat * option num) : option (graph dist) :=
  match nth_error units (fst (fst e)), nth_error child (snd (fst e)) with
  | Some u, Some v => Some (add_edge g u v (snd e))
  | _, _ => None
  end.

(** The edges that [SparseSumLayer.to_nx] (IL.py:431-433) and [DenseSumLayer.to_nx] (IL.py:523-526) add for one child layer.
    The dense variant passes the exponential of the log weight as log weight. *)
Definition sparse_additions (w : sparse num) : list (nat * nat * option num) := map (fun e => (fst e, Some (snd e))) (s_entries w).
Definition dense_additions (w : dense) : list (nat * nat * option num) :=
  concat (map (fun r => map (fun c => (r, c, Some (nexp (d_at w r c)))) (seq 0 (d_cols w))) (seq 0 (d_rows w))).

(** Lines IL.py:423-438 and 518-534: units, edges, normalisation. *)
Definition sum_edges (units : list id) (additions : list (list (nat * nat * option num))) (children : list (list id)) (g : graph dist) : option (graph dist) :=
  foldM (fun g ac => foldM (connect units (snd ac)) (fst ac) g) (combine additions children) g.
Definition normalize_units (units : list id) (g : graph dist) : option (graph dist) := foldM sum_normalize units g.

(** [for (row, col), data in zip(edges.indices, edges.data): units[col].add_subcircuit(child_layer_nx[row][data])] (IL.py:681-682). *)
Definition product_edges (units : list id) (edges : sparse nat) (children : list (list id)) (g : graph dist) : option (graph dist) :=
  foldM (fun g e => match nth_error children (fst (fst e)) with None => None | Some child => connect units child g (snd (fst e), snd e, None) end) (s_entries edges) g.

(** [to_nx] of the child layers, one after the other. *)
Fixpoint all_to_nx (fs : list (graph dist -> option (graph dist * list id))) (g : graph dist) : option (graph dist * list (list id)) :=
  match fs with
  | [] => Some (g, [])
  | f :: fs' =>
      match f g with
      | None => None
      | Some (g1, ids) => match all_to_nx fs' g1 with None => None | Some (g2, idss) => Some (g2, ids :: idss) end
      end
  end.

(** [to_nx] (IL.py:418-440, 513-536, 668-687, GL.py:83-98, DL.py:85-100, UL.py:65-84, IN.py:147-160).  The Dirac layer updates
    the progress bar even if there is none. *)
Fixpoint to_nx (n : nat) (bar : bool) (L : layer) (g : graph dist) : option (graph dist * list id) :=
  if forallb (fun v => v <? n) (variables L) then
    match L with
    | LInput v i =>
        match i, bar with
        | IDirac _ _, false => None
        | _, _ => Some (add_units (map ULeaf (leaves v i)) g)
        end
    | LSparse ws cs =>
        let '(g1, units) := add_units (repeat USum (number_of_nodes L)) g in
        match all_to_nx (map (to_nx n bar) cs) g1 with
        | None => None
        | Some (g2, children) =>
            match sum_edges units (map sparse_additions ws) children g2 with
            | None => None
            | Some g3 => match normalize_units units g3 with None => None | Some g4 => Some (g4, units) end
            end
        end
    | LDense ws cs =>
        let '(g1, units) := add_units (repeat USum (number_of_nodes L)) g in
        match all_to_nx (map (to_nx n bar) cs) g1 with
        | None => None
        | Some (g2, children) =>
            match sum_edges units (map dense_additions ws) children g2 with
            | None => None
            | Some g3 => match normalize_units units g3 with None => None | Some g4 => Some (g4, units) end
            end
        end
    | LProd edges cs =>
        let '(g1, units) := add_units (repeat UProd (number_of_nodes L)) g in
        match all_to_nx (map (to_nx n bar) cs) g1 with
        | None => None
        | Some (g2, children) => match product_edges units edges children g2 with None => None | Some g3 => Some (g3, units) end
        end
    end
  else None.

(** [ProbabilisticCircuit.to_nx] (JPC.py:77-91). *)
Definition circuit_to_nx (n : nat) (bar : bool) (L : layer) : option (graph dist) :=
  match to_nx n bar L (mkGraph [] []) with None => None | Some (g, _) => Some g end.
