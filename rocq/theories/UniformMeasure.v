(** * UniformMeasure: uniform measures of events

    Paths are relative to /repo/src/probabilistic_model; helper.py is probabilistic_circuit/nx/helper.py, U.py is distributions/uniform.py.

    Simplifications: the variables of an event are names with their kind, in the order of the event; the circuit that is put together
    is the layout of its tree, that is, the fresh units are numbered in order ([unit_normalised] below ties the normalised weights to
    [SumUnit.normalize] on that circuit).  The union of two assignments (random_events) is a parameter.  The key of an integer is
    the lower bound of its interval; a bound that is not an integer is not represented. *)
From Coq Require Import List Arith Bool Lia Reals ZArith.
From Verif Require Import Num Graph Spec Circuit Interval Dist Layout Star Conditional LeafCond ConditionalEvent.
Import ListNotations.
Local Open Scope R_scope.

Inductive vkind := VContinuous | VSymbolic | VInteger.

(** [UniformDistribution.log_pdf_value] and [pdf_value] (U.py:36-46). *)
Definition log_pdf_value (i : sint) : num := nopp (nlog (nsub (hi i) (lo i))).
Definition pdf_value (i : sint) : num := nexp (log_pdf_value i).

(** One interval of a continuous variable: the leaf and the weight it is mounted with (helper.py:46-49). *)
Definition uniform_part (v : nat) (i : sint) : num * dist := (ndiv (Fin 1) (pdf_value i), DUnif v i).

(** [distribution.normalize()] (helper.py:50; probabilistic_circuit.py:589-595); [logsumexp] of no weights raises. *)
Definition normalised_parts (l : list (num * dist)) : option (list (num * dist)) :=
  match l with
  | [] => None
  | _ => let total := logsumexp (map fst l) in Some (map (fun wd => (nsub (fst wd) total, snd wd)) l)
  end.

(** [value.lower] of an integer value (helper.py:61-62). *)
Definition integer_key (i : sint) : option Z :=
  match lo i with
  | Fin r => let k := Int_part r in if Reqb r (IZR k) then Some k else None
  | _ => None
  end.

(** The distribution of one variable (helper.py:42-66). *)
Definition uniform_unit (vk : nat * vkind) (A : evset) : option (pc dist) :=
  let '(v, k) := vk in
  match k, A with
  | VContinuous, EInt A => match normalised_parts (map (uniform_part v) A) with Some l => Some (star l) | None => None end
  | VSymbolic, ESym l => Some (PLeaf (DSym v (map (fun k => (k, 1 / INR (length l))) l)))
  | VInteger, EInt A => match mapM integer_key A with Some ks => Some (PLeaf (DInt v (map (fun k => (k, 1 / INR (length A))) ks))) | None => None end
  | _, _ => None (* does not occur: the assignment belongs to the variable *)
  end.

(** [uniform_measure_of_simple_event] (helper.py:30-70). *)
Definition uniform_measure_of_simple_event (vars : list (nat * vkind)) (e : sevent) : option (graph dist) :=
  match mapM (fun vk => uniform_unit vk (e (fst vk))) vars with
  | Some ts => Some (layout (PProd ts))
  | None => None
  end.

(** [event.bounding_box()]: the union of the assignments, variable by variable. *)
Definition bounding_box (union : evset -> evset -> evset) (e : sevent) (es : list sevent) : sevent :=
  fun v => fold_left (fun A e' => union A (e' v)) es (e v).

(** [uniform_measure_of_event] (helper.py:12-28).  The copy that [conditional] works on has no results yet. *)
Definition uniform_measure_of_event (union : evset -> evset -> evset) (vars : list (nat * vkind)) (es : list sevent) : option (option (graph dist)) :=
  match es with
  | [] => Some None
  | e :: es' =>
    match uniform_measure_of_simple_event vars (bounding_box union e es') with
    | None => None
    | Some g => match conditional_event es g empty_store with Some (q, _) => Some q | None => None end
    end
  end.
