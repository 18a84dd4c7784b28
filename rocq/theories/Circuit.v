(** * Circuit: inference by one pass over the layers

    Models src/probabilistic_model/probabilistic_circuit/nx/probabilistic_circuit.py (PC.py):
    Unit.variables, LeafUnit/SumUnit/ProductUnit forward functions and the queries of ProbabilisticCircuit that make
    one bottom-up pass.  The attribute [result_of_current_query] (PC.py:41) of all units is an explicit store that
    survives between queries; [None] in the store is its initial value None.

    Simplification: the code evaluates a whole array of points at once, row by row (axis=0 in PC.py:401,406,653);
    the model evaluates one row. *)
From Coq Require Import List Arith Bool Lia Reals.
From Verif Require Import Num Graph.
Import ListNotations.

Definition store (V : Type) := id -> option V.
Definition empty_store {V} : store V := fun _ => None.
Definition upd {V} (st : store V) (u : id) (v : V) : store V := fun x => if x =? u then Some v else st x.

Section Pass.
Context {D V : Type}.
Variable lf : D -> option V.                    (* what a leaf computes; None: it raises *)
Variable sumf : list (num * V) -> option V.     (* what a sum unit computes from (log weight, child result) pairs *)
Variable prodf : list V -> option V.            (* what a product unit computes from its child results *)

(** The result a unit writes, given the results currently stored at its children.
    [log_weighted_subcircuits] (PC.py:358-363) raises KeyError when an edge carries no log weight; arithmetic with an
    unset result (None) raises TypeError. *)
Definition eval_unit (g : graph D) (st : store V) (u : id) : option V :=
  match node_kind g u with
  | None => None
  | Some (ULeaf d) => lf d
  | Some USum =>
      match mapM (fun e => match e_lw e, st (e_dst e) with
                           | Some w, Some v => Some (w, v) | _, _ => None end) (out_edges g u) with
      | None => None
      | Some l => sumf l
      end
  | Some UProd =>
      match mapM (fun e => st (e_dst e)) (out_edges g u) with
      | None => None
      | Some l => prodf l
      end
  end.

(** [for layer in reversed(self.layers): for unit in layer: ...] *)
Definition eval_order (g : graph D) (order : list id) (st : store V) : option (store V) :=
  foldM (fun st u => match eval_unit g st u with None => None | Some v => Some (upd st u v) end) order st.

(** One query: a bottom-up pass, then [self.root.result_of_current_query]. *)
Definition run_pass (g : graph D) (st : store V) : option (V * store V) :=
  match root g, bottom_up g with
  | Some r, Some order =>
      match eval_order g order st with
      | None => None
      | Some st' => match st' r with None => None | Some v => Some (v, st') end
      end
  | _, _ => None
  end.
End Pass.

(** SumUnit.log_forward (PC.py:403-406).  [logsumexp] of an empty array raises ValueError. *)
Definition sum_log_forward (l : list (num * num)) : option num :=
  match l with
  | [] => None
  | _ => Some (logsumexp (map (fun p => nadd (fst p) (snd p)) l))
  end.

(** ProductUnit.log_forward (PC.py:651-653). *)
Definition prod_log_forward (l : list num) : option num := Some (nsum l).

(** SumUnit.forward (PC.py:399-401). *)
Definition sum_forward (l : list (num * num)) : option num :=
  Some (nsum (map (fun p => nmul (nexp (fst p)) (snd p)) l)).

(** ProductUnit.forward (PC.py:647-649). *)
Definition prod_forward (l : list num) : option num := Some (nprod l).

(** ** Variables *)

(** Insertion into a [SortedSet]; variables are ordered by name, modelled by numbers. *)
Fixpoint sset_insert (v : nat) (l : list nat) : list nat :=
  match l with
  | [] => [v]
  | w :: l' => match Nat.compare v w with
               | Lt => v :: l
               | Eq => l
               | Gt => w :: sset_insert v l'
               end
  end.

Definition sset_of (l : list nat) : list nat := fold_right sset_insert [] l.
Definition sset_union (a b : list nat) : list nat := fold_right sset_insert a b.

Section Queries.
Context {D : Type}.
Variable dvars : D -> list nat.                 (* distribution.variables *)
Variable dll : D -> list R -> num.              (* distribution.log_likelihood of one row of its own columns *)
Variable dcdf : D -> list R -> option num.      (* distribution.cdf of one row of its own columns; None: raises *)

(** [Unit.variables]: LeafUnit PC.py:229-230, SumUnit PC.py:366-367 (the variables of the first child only; IndexError
    without children), ProductUnit PC.py:657-662.  [fuel] is the recursion depth; [None] when it is exhausted (Python:
    RecursionError).  [unit_variables_spec] shows that the fuel used below suffices for every circuit. *)
Fixpoint unit_variables (g : graph D) (fuel : nat) (u : id) : option (list nat) :=
  match fuel with
  | 0 => None
  | S f =>
    match node_kind g u with
    | None => None
    | Some (ULeaf d) => Some (sset_of (dvars d))
    | Some USum => match subcircuits g u with [] => None | c :: _ => unit_variables g f c end
    | Some UProd => match mapM (unit_variables g f) (subcircuits g u) with
                    | None => None
                    | Some ls => Some (fold_left sset_union ls [])
                    end
    end
  end.

(** [ProbabilisticCircuit.variables] (PC.py:749-751). *)
Definition circuit_variables (g : graph D) : option (list nat) :=
  match root g with None => None | Some r => unit_variables g (S (length (g_nodes g))) r end.

(** [variable_to_index_map[variable]] (PC.py:753-755); KeyError for a foreign variable. *)
Fixpoint var_index (vars : list nat) (v : nat) : option nat :=
  match vars with
  | [] => None
  | w :: vs => if w =? v then Some 0 else match var_index vs v with None => None | Some i => Some (S i) end
  end.

(** [events[:, [variable_to_index_map[variable] for variable in unit.variables]]] for one row (PC.py:808,820). *)
Definition select_columns (vars : list nat) (row : list R) (own : list nat) : option (list R) :=
  mapM (fun v => match var_index vars v with None => None | Some i => nth_error row i end) own.

(** [ProbabilisticCircuit.log_likelihood] (PC.py:802-812). *)
Definition log_likelihood (g : graph D) (row : list R) (st : store num) : option (num * store num) :=
  match circuit_variables g with
  | None => None
  | Some vars =>
    run_pass (fun d => match select_columns vars row (sset_of (dvars d)) with
                       | None => None | Some cs => Some (dll d cs) end)
             sum_log_forward prod_log_forward g st
  end.

(** [ProbabilisticCircuit.cdf] (PC.py:814-824). *)
Definition cdf (g : graph D) (row : list R) (st : store num) : option (num * store num) :=
  match circuit_variables g with
  | None => None
  | Some vars =>
    run_pass (fun d => match select_columns vars row (sset_of (dvars d)) with
                       | None => None | Some cs => dcdf d cs end)
             sum_forward prod_forward g st
  end.

(** [ProbabilisticCircuit.probability_of_simple_event] (PC.py:826-835); [dprob d] is the leaf's probability of the
    (fixed) event, None when the leaf raises. *)
Definition probability_of_simple_event (dprob : D -> option num) (g : graph D) (st : store num) : option (num * store num) :=
  run_pass dprob sum_forward prod_forward g st.
End Queries.
