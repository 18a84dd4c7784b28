(** * ConditionalEvent: conditioning on events of several simple sets

    Source: /repo/src/probabilistic_model/probabilistic_circuit/nx/probabilistic_circuit.py (PC.py).

    Simplifications: an event is the list of its simple sets, each of which has every variable of the circuit; units of
    different copies are different objects, here they get numbers of their own.  The conditioned copies are new, so that none
    of their units has a result before (PC.py:41, 1007-1017). *)
From Coq Require Import List Arith Bool Reals.
From Verif Require Import Num Interval Graph Circuit Dist Simplify Conditional Heap Interaction.
Import ListNotations.
Local Open Scope nat_scope.

Section Event.
Context {D : Type}.
Implicit Types g q : graph D.

(** [log_conditional_of_simple_event_in_place] (PC.py:852-880) together with the results that the units keep. *)
Definition conditional_results (lcond : D -> option (lres D)) g (st : store num) : option (option (graph D) * num * store num) :=
  match bottom_up g with
  | None => None
  | Some order =>
    match foldM (unit_conditional lcond) order (g, st, S (list_max (node_ids g))) with
    | None => None
    | Some (g1, st1, _) => match conditional_finish g1 st1 with None => None | Some (q, lp) => Some (q, lp, st1) end
    end
  end.

(** The same circuit with other objects. *)
Definition shift (k : nat) g : graph D :=
  mkGraph (map (fun p => (fst p + k, snd p)) (g_nodes g)) (map (fun e => mkEdge (e_src e + k) (e_dst e + k) (e_lw e)) (g_edges g)).

(** [result.add_subcircuit(conditional.root, log_probability)] (PC.py:924-925, 381-397): the new sum unit is 0.  The log weights
    and results are what [log_forward] will read (PC.py:404-406); a result of None raises there. *)
Definition mount_part (x : graph D * list (num * num)) (part : option (graph D) * num * store num) : option (graph D * list (num * num)) :=
  let '(acc, vs) := x in
  match part with
  | (None, _, _) => None (* AttributeError *)
  | (Some q, lp, st) =>
    match root q with
    | None => None
    | Some r =>
      let k := S (list_max (node_ids acc)) in
      match mount acc (shift k q) (r + k), st r with
      | Some acc', Some v => Some (add_edge acc' 0 (r + k) (Some lp), vs ++ [(lp, v)])
      | _, _ => None
      end
    end
  end.

(** The sum unit over the conditional circuits (PC.py:911-928). *)
Definition mount_parts (parts : list (option (graph D) * num * store num)) : option (option (graph D) * num) :=
  match filter (fun part => gt_ninf (snd (fst part))) parts with
  | [] => Some (None, NInf)
  | l =>
    match foldM mount_part l (mkGraph [(0, USum)] [], []) with
    | None => None
    | Some (acc, vs) =>
      match sum_log_forward vs, sum_normalize acc 0 with
      | Some v, Some q => Some (Some q, v)
      | _, _ => None
      end
    end
  end.
End Event.

(** [log_conditional_in_place] (PC.py:882-928). *)
Definition conditional_event (es : list sevent) (g : graph dist) (st : store num) : option (option (graph dist) * num) :=
  match es with
  | [] => Some (None, NInf)
  | [e] => conditional_on e g st
  | _ =>
    match mapM (fun e => conditional_results (fun d => leaf_cond d (e (dvar d))) g empty_store) es with
    | None => None
    | Some parts => mount_parts parts
    end
  end.
