(** * Conditional: conditioning a circuit on an event, in place

    Models src/probabilistic_model/probabilistic_circuit/nx/probabilistic_circuit.py (PC.py):
    LeafUnit.log_conditional_of_simple_event_in_place, ProbabilisticCircuit.log_conditional_of_simple_event_in_place,
    log_conditional_in_place and log_conditional; and src/probabilistic_model/probabilistic_circuit/nx/distributions/
    distributions.py (L.py): UnivariateContinuousLeaf.log_conditional_of_simple_event_in_place. *)
From Coq Require Import List Arith Bool ZArith Reals.
From Verif Require Import Num Graph Circuit Interval Dist Simplify.
Import ListNotations.

(** What conditioning one leaf does: the distribution becomes None and the result -inf; or the distribution is replaced
    and the log probability stored; or the leaf is replaced by a sum unit over the listed (edge weight, distribution)
    pairs, which stores the log probability. *)
Inductive lres (D : Type) : Type :=
| LDead
| LOne (d : D) (lp : num)
| LMany (l : list (num * D)) (lp : num).
Arguments LDead {D}.
Arguments LOne {D} d lp.
Arguments LMany {D} l lp.

Section Conditional.
Context {D : Type}.
Variable lcond : D -> option (lres D).      (* conditioning a leaf on the event at hand; None: it raises *)
Implicit Types g : graph D.

(** The circuit, the results stored at its units and the next unused unit.  Simplification: a new Python object is a
    number that no unit of the circuit has had so far. *)
Local Notation cstate := (graph D * store num * nat)%type.

Definition clear (st : store num) (u : id) : store num := fun v => if v =? u then None else st v.

(** One turn of the loop L.py:53-65 after the zero test: a new leaf below the sum unit [s]. *)
Definition add_part (s : id) (x : cstate) (pd : num * D) : cstate :=
  let '(g, st, nx) := x in
  (add_edge (add_node g nx (ULeaf (snd pd))) s nx (Some (fst pd)), clear st nx, S nx).

(** LeafUnit.log_conditional_of_simple_event_in_place (PC.py:258-259) and
    UnivariateContinuousLeaf.univariate_log_conditional_of_simple_event_in_place (L.py:29-82).
    Simplification: [self.distribution = None] leaves the distribution in place here.  The result is then -inf, the unit
    is removed (PC.py:869-870), and nothing reads a distribution in between. *)
Definition leaf_conditional (x : cstate) (u : id) (d : D) : option cstate :=
  let '(g, st, nx) := x in
  match lcond d with
  | None => None
  | Some LDead => Some (g, upd st u NInf, nx)
  | Some (LOne d' lp) => Some (set_kind g u (ULeaf d'), upd st u lp, nx)
  | Some (LMany l lp) =>
      let s := nx in
      let '(g1, st1, nx1) := fold_left (add_part s) l (add_node g s USum, clear st s, S nx) in
      match remove_node (connect_incoming_edges_to g1 u s) u with
      | None => None
      | Some g2 => match sum_normalize g2 s with
                   | None => None
                   | Some g3 => Some (g3, upd st1 s lp, nx1)
                   end
      end
  end.

(** One unit of the bottom-up pass (PC.py:859-866). *)
Definition unit_conditional (x : cstate) (u : id) : option cstate :=
  match node_kind (fst (fst x)) u with
  | Some (ULeaf d) => leaf_conditional x u d
  | _ => match eval_unit (fun _ => None) sum_log_forward prod_log_forward (fst (fst x)) (snd (fst x)) u with
         | None => None
         | Some v => Some (fst (fst x), upd (snd (fst x)) u v, snd x)
         end
  end.

(** [node.result_of_current_query == -np.inf] (an unset result is not). *)
Definition result_is_ninf (st : store num) (u : id) : bool := match st u with Some v => is_ninf v | None => false end.

(** The second half of [log_conditional_of_simple_event_in_place] (PC.py:868-880): units with result -inf are removed, then
    what the root no longer reaches; simplify, normalize. *)
Definition conditional_finish g1 (st1 : store num) : option (option (graph D) * num) :=
  match root g1, bottom_up g1 with
  | Some r, Some order1 =>
    match foldM remove_node (filter (result_is_ninf st1) order1) g1 with
    | None => None
    | Some g2 =>
      if negb (has_node g2 r) then Some (None, NInf)
      else
        match remove_unreachable_nodes g2 r with
        | None => None
        | Some g3 =>
          match simplify (fun _ => false) g3 with
          | None => None
          | Some g4 =>
            match normalize g4, st1 r with
            | Some g5, Some lp => Some (Some g5, lp)
            | _, _ => None
            end
          end
        end
    end
  | _, _ => None
  end.

(** [ProbabilisticCircuit.log_conditional_of_simple_event_in_place] (PC.py:852-880). *)
Definition conditional_simple g (st : store num) : option (option (graph D) * num) :=
  match bottom_up g with
  | None => None
  | Some order =>
    match foldM unit_conditional order (g, st, S (list_max (node_ids g))) with
    | None => None
    | Some (g1, st1, _) => conditional_finish g1 st1
    end
  end.
End Conditional.

(** ** Leaves *)

Definition is_zero (x : num) : bool := match x with Fin r => Reqb r 0 | _ => false end.

(** The list of (weight, distribution) pairs collected by the loop L.py:53-65. *)
Definition composite_parts (d : dist) (A : interval) : option (list (num * dist)) :=
  match mapM (cond_simple_interval d) A with
  | None => None
  | Some l => Some (filter (fun pd => negb (is_zero (fst pd))) (map (fun q => (nexp (snd q), fst q)) l))
  end.

(** [log_conditional_of_simple_event_in_place] of a leaf, given the event's set for its variable: discrete leaves
    (PC.py:258-259), continuous leaves (L.py:26-82). *)
Definition leaf_cond (d : dist) (A : evset) : option (lres dist) :=
  match d with
  | DSym _ _ | DInt _ _ =>
      match discrete_cond d A with
      | None => None
      | Some (Some d', lp) => Some (LOne d' lp)
      | Some (None, _) => Some LDead
      end
  | _ =>
    match A with
    | ESym _ => None
    | EInt A =>
      match support_inter d A with
      | [] => Some LDead
      | [j] => match cond_simple_interval d j with Some (d', lp) => Some (LOne d' lp) | None => None end
      | js => match composite_parts d js with
              | None => None
              | Some l => let total := nsum (map fst l) in
                          if is_zero total then Some LDead else Some (LMany l (nlog total))
              end
      end
    end
  end.

(** [event[self.variable]] of a simple event that has every variable of the circuit. *)
Definition conditional_on (e : sevent) (g : graph dist) (st : store num) : option (option (graph dist) * num) :=
  conditional_simple (fun d => leaf_cond d (e (dvar d))) g st.
