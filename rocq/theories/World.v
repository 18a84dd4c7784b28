(** * World: several circuits side by side

    A program holds several circuits at once and calls methods on them in any order.  This file adds the circuit objects
    themselves to the heap of [Heap], so that "the receiver" and "the returned circuit" are two objects.
    Models PC.py:882-945, 972-977, 1007-1017, 1108-1112, 1282-1288 and probabilistic_model.py:173-184 as calls on a circuit object. *)
From Coq Require Import List Arith Bool Lia ZArith Reals.
From Verif Require Import Num Graph Circuit Interval Dist Simplify Conditional Copy Heap.
Import ListNotations.
Local Open Scope nat_scope.

(** All objects.  A circuit object is a position in [w_circs]. *)
Record world : Type := mkWorld { w_heap : heap; w_circs : list circ }.

(** The units, edges, weights and parameters of circuit object [i] at the moment. *)
Definition w_view (W : world) (i : nat) : option (graph dist) :=
  match nth_error (w_circs W) i with None => None | Some c => view (w_heap W) c end.

(** [copy.copy(circuit)] (PC.py:1007-1017): a new circuit object, which gets the next position. *)
Definition w_copy (W : world) (i : nat) : option world :=
  match nth_error (w_circs W) i with
  | None => None
  | Some c => match h_copy (w_heap W) c with
              | None => None
              | Some (H, c') => Some (mkWorld H (w_circs W ++ [c']))
              end
  end.

(** A method that works in place on circuit object [i]. *)
Definition w_in_place (W : world) (i : nat) (o : op) : option world :=
  match nth_error (w_circs W) i with
  | None => None
  | Some c => match run_op (w_heap W, c) o with
              | None => None
              | Some (H, c') => Some (mkWorld H (set_nth (w_circs W) i c'))
              end
  end.

(** [log_conditional] and [conditional] (PC.py:930-932, probabilistic_model.py:173-184), [marginal] (PC.py:943-945):
    [result = self.__copy__()], then the method in place on [result]. *)
Definition w_log_conditional (W : world) (i : nat) (es : list sevent) (sts : list (store num)) : option world :=
  match w_copy W i with
  | None => None
  | Some W1 => w_in_place W1 (List.length (w_circs W)) (OpConditional es sts)
  end.
Definition w_marginal (W : world) (i : nat) (vs : list nat) : option world :=
  match w_copy W i with
  | None => None
  | Some W1 => w_in_place W1 (List.length (w_circs W)) (OpMarginal vs)
  end.

(** One call; a call that raises ends the program. *)
Inductive action : Type :=
| ActCopy (i : nat)
| ActInPlace (i : nat) (o : op)
| ActConditional (i : nat) (es : list sevent) (sts : list (store num))
| ActMarginal (i : nat) (vs : list nat).

Definition act (W : world) (a : action) : option world :=
  match a with
  | ActCopy i => w_copy W i
  | ActInPlace i o => w_in_place W i o
  | ActConditional i es sts => w_log_conditional W i es sts
  | ActMarginal i vs => w_marginal W i vs
  end.
Definition program (l : list action) (W : world) : option world := foldM act l W.
