(** * L1: the L1 metric between shallow circuits

    Models /repo/src/probabilistic_model/probabilistic_circuit/nx/probabilistic_circuit.py (PC.py): [subgraph_of] (1129-1137),
    [events_of_higher_density_product] (1385-1413), [events_of_higher_density_sum] (1415-1427) and [l1] (1429-1440), and
    [ProbabilisticModel.probability] (probabilistic_model.py:110-119).

    Differences and unions of events are operations of the library random_events, which is not part of the repository.  The
    model gives them one implementation that returns disjoint boxes, as the library promises.

    Simplifications: a variable without an assignment counts as a real variable without restriction ([fill_missing_variables],
    probabilistic_model.py:118); centres of unbounded intervals and of symbols are not modelled, the model answers None there;
    the results that units keep from one query to the next ([result_of_current_query], PC.py:41) are the same two stores
    [se] and [sn] at the start of every query; the progress bar (PC.py:1422, 1426) is left out. *)
From Coq Require Import List Arith Bool Lia Reals ZArith.
From Verif Require Import Num Graph Spec Circuit Interval Dist Support Interaction.
Import ListNotations.

(** ** Events of random_events *)

(** SimpleInterval.complement: what is left and what is right of it. *)
Definition sint_compl (i : sint) : interval :=
  match lo i with Fin a => [mkSint NInf (Fin a) false (negb (lc i))] | _ => [] end ++
  match hi i with Fin b => [mkSint (Fin b) PInf (negb (rc i)) false] | _ => [] end.

(** Interval.complement and Interval.difference_with. *)
Definition interval_compl (A : interval) : interval := fold_left (fun acc i => interval_inter acc (sint_compl i)) A [ireals].
Definition interval_minus (A B : interval) : interval := interval_inter A (interval_compl B).

(** Difference of two assignments of one variable; as in [evset_inter] the mixed cases do not arise. *)
Definition evset_minus (A B : evset) : evset :=
  match A, B with
  | EInt A, EInt B => EInt (interval_minus A B)
  | EInt A, ESym l => EInt (interval_minus A (map (fun k => isingleton (IZR k)) l))
  | ESym l, B => ESym (filter (fun k => negb (in_evset B (IZR k))) l)
  end.

Fixpoint without (v : nat) (A : evset) (b : box) : box :=
  match b with
  | [] => [(v, evset_minus (EInt [ireals]) A)]
  | (w, B) :: b' => if w =? v then (w, evset_minus B A) :: b' else (w, B) :: without v A b'
  end.

(** SimpleEvent.difference_with: the boxes that leave [b] at the first, second, ... variable. *)
Fixpoint box_minus (a b : box) : event :=
  match b with
  | [] => []
  | (v, A) :: b' => without v A a :: box_minus (constrain v A a) b'
  end.

(** Event.difference_with: one box after the other is taken away, empty boxes are dropped. *)
Definition minus_box (E : event) (b : box) : event := filter (fun c => negb (box_empty c)) (flat_map (fun a => box_minus a b) E).
Definition event_minus (E F : event) : event := fold_left minus_box F E.

(** Event.union_with, Event.make_disjoint. *)
Definition event_or (E F : event) : event := E ++ event_minus F E.
Definition make_disjoint (E : event) : event := fold_left (fun acc b => event_or acc [b]) E [].

(** ** The circuit *)

(** [subgraph_of] (PC.py:1129-1137). *)
Definition subgraph_of (g : graph dist) (u : id) : option (graph dist) :=
  match reachable_list g u with
  | None => None
  | Some l => Some (subgraph g l)
  end.

Definition box_get (b : box) (v : nat) : option evset :=
  match find (fun vA => fst vA =? v) b with None => None | Some vA => Some (snd vA) end.

(** [assignment.simple_sets[0].center()]; IndexError for an empty assignment. *)
Definition center (A : evset) : option R :=
  match A with
  | EInt (i :: _) => match lo i, hi i with Fin a, Fin b => Some ((a + b) / 2)%R | _, _ => None end
  | _ => None
  end.

(** The row of centres (PC.py:1401-1402); the assignments of a SimpleEvent are sorted by variable. *)
Definition center_row (b : box) : option (list R) :=
  mapM (fun v => match box_get b v with None => None | Some A => center A end) (sset_of (map fst b)).

Section L1.
Variables (se : store event) (sn : store num).

Definition support (g : graph dist) : option event :=
  match circuit_support g se with None => None | Some (E, _) => Some E end.

(** [ProbabilisticModel.likelihood] of one row. *)
Definition likelihood (g : graph dist) (row : list R) : option num :=
  match log_likelihood dist_vars dist_ll g row sn with None => None | Some (ll, _) => Some (nexp ll) end.

(** [events_of_higher_density_product] (PC.py:1385-1413). *)
Definition higher_product (g h : graph dist) (tol : num) (own other : id) : option event :=
  match subgraph_of g own, subgraph_of h other with
  | Some own_copy, Some other_copy =>
    match support own_copy, support other_copy with
    | Some E, Some F =>
      match event_inter E F with
      | [] => Some []
      | b :: intersection =>
        match center_row b with
        | None => None
        | Some row =>
          match likelihood g row, likelihood h row with
          | Some p, Some q => if flt tol (nsub p q) then Some (b :: intersection) else Some []
          | _, _ => None
          end
        end
      end
    | _, _ => None
    end
  | _, _ => None
  end.

(** [events_of_higher_density_sum] (PC.py:1415-1427). *)
Definition higher_sum (g h : graph dist) (tol : num) : option event :=
  match support g, support h, root g, root h with
  | Some E, Some F, Some r, Some s =>
    foldM (fun acc pair => match higher_product g h tol (fst pair) (snd pair) with
                           | None => None
                           | Some X => Some (event_or acc X)
                           end)
          (list_prod (subcircuits g r) (subcircuits h s)) (event_minus (make_disjoint E) F)
  | _, _, _, _ => None
  end.

(** The simple event of a box after [fill_missing_variables]. *)
Definition assign (b : box) : sevent := fun v => match box_get b v with None => EInt [ireals] | Some A => A end.

(** [ProbabilisticModel.probability] (probabilistic_model.py:110-119). *)
Definition probability (g : graph dist) (E : event) : option num :=
  match mapM (fun b => match probability_of_simple_event (dist_prob (assign b)) g sn with None => None | Some (p, _) => Some p end) E with
  | None => None
  | Some ps => Some (nsum ps)
  end.

(** [l1] (PC.py:1429-1440). *)
Definition l1 (g h : graph dist) (tol : num) : option num :=
  match higher_sum g h tol with
  | None => None
  | Some E => match probability g E, probability h E with
              | Some p, Some q => Some (nmul (Fin 2) (nsub p q))
              | _, _ => None
              end
  end.
End L1.
