(** * Support: support, determinism and mode of a circuit

    Models PC.py:247-248, 409-413, 664-671 (support), 597-609 and 1097-1106 (is_deterministic), 611-620, 692-698 and 836-842
    (log_mode) and 979-982.

    Events are values of the library random_events, which is not part of the repository.  The model: an event is a list of
    boxes, a box assigns sets to some variables, a variable without an assignment is unconstrained.  Simplifications:
    [fill_missing_variables] (PC.py:666, 694) writes the full domain of a variable into a box and so is not represented;
    [make_disjoint], which random_events applies after unions, changes the boxes but not the points of an event. *)
From Coq Require Import List Arith Bool Lia Reals ZArith.
From Verif Require Import Num Graph Spec Circuit Interval Dist.
Import ListNotations.

Definition box : Type := list (nat * evset).
Definition event : Type := list box.

Definition in_box (b : box) (x : nat -> R) : bool := forallb (fun vA => in_evset (snd vA) (x (fst vA))) b.
Definition in_event (E : event) (x : nat -> R) : bool := existsb (fun b => in_box b x) E.

(** Intersection of two assignments of one variable.  A variable is either numeric or symbolic, so the mixed cases do not arise. *)
Definition evset_inter (A B : evset) : evset :=
  match A, B with
  | EInt A, EInt B => EInt (interval_inter A B)
  | ESym l, ESym m => ESym (filter (fun k => existsb (Z.eqb k) m) l)
  | EInt A, ESym l | ESym l, EInt A => ESym (filter (fun k => in_interval A (IZR k)) l)
  end.

Definition evset_empty (A : evset) : bool := match A with EInt [] | ESym [] => true | _ => false end.

Fixpoint constrain (v : nat) (A : evset) (b : box) : box :=
  match b with
  | [] => [(v, A)]
  | (w, B) :: b' => if w =? v then (w, evset_inter B A) :: b' else (w, B) :: constrain v A b'
  end.

(** SimpleEvent.intersection_with and SimpleEvent.is_empty. *)
Definition box_inter (a b : box) : box := fold_left (fun acc vA => constrain (fst vA) (snd vA) acc) b a.
Definition box_empty (b : box) : bool := match b with [] => true | _ => existsb (fun vA => evset_empty (snd vA)) b end.

(** Event.intersection_with (only non-empty boxes are kept), Event.union_with, Event.is_empty. *)
Definition event_inter (E F : event) : event :=
  filter (fun b => negb (box_empty b)) (flat_map (fun a => map (box_inter a) F) E).
Definition event_union (E F : event) : event := E ++ F.
Definition event_empty (E : event) : bool := match E with [] => true | _ => false end.

(** ** Support *)
Definition leaf_event (v : nat) (A : evset) : event := [[(v, A)]].

(** [SumUnit.support]: IndexError without children. *)
Definition sum_support (l : list (num * event)) : option event :=
  match l with [] => None | p :: l' => Some (fold_left event_union (map snd l') (snd p)) end.

(** [ProductUnit.support]: IndexError without children. *)
Definition prod_support (l : list event) : option event :=
  match l with [] => None | E :: l' => Some (fold_left event_inter l' E) end.

Definition dist_support (d : dist) : option event := Some (leaf_event (dvar d) (support1 d)).

(** [ProbabilisticCircuit.support].  Simplification: [run_pass] also raises when a sum edge has no log weight, which
    [SumUnit.support] would not notice. *)
Definition circuit_support (g : graph dist) (st : store event) : option (event * store event) :=
  run_pass dist_support sum_support prod_support g st.

(** ** Determinism *)

(** [itertools.combinations(self.subcircuits, 2)]. *)
Fixpoint none_intersect (l : list event) : bool :=
  match l with
  | [] => true
  | E :: l' => forallb (fun F => event_empty (event_inter E F)) l' && none_intersect l'
  end.

(** [SumUnit.is_deterministic]; None when a child has no stored result. *)
Definition unit_deterministic (g : graph dist) (st : store event) (u : id) : option bool :=
  match mapM st (subcircuits g u) with
  | None => None
  | Some l => Some (none_intersect l)
  end.

(** [all(...)] with its short circuit. *)
Fixpoint all_opt (l : list (option bool)) : option bool :=
  match l with
  | [] => Some true
  | None :: _ => None
  | Some false :: _ => Some false
  | Some true :: l' => all_opt l'
  end.

Definition sum_nodes (g : graph dist) : list id :=
  map fst (filter (fun uk => match snd uk with USum => true | _ => false end) (g_nodes g)).

(** [ProbabilisticCircuit.is_deterministic]. *)
Definition is_deterministic (g : graph dist) (st : store event) : option (bool * store event) :=
  match circuit_support g st with
  | None => None
  | Some (_, st') => match all_opt (map (unit_deterministic g st') (sum_nodes g)) with
                     | None => None
                     | Some b => Some (b, st')
                     end
  end.

(** ** Mode *)

(** Comparisons of floats; false for nan. *)
Definition flt (a b : num) : bool :=
  match a, b with
  | NInf, Fin _ | NInf, PInf | Fin _, PInf => true
  | Fin x, Fin y => Rltb x y
  | _, _ => false
  end.
Definition feq (a b : num) : bool :=
  match a, b with
  | NInf, NInf | PInf, PInf => true
  | Fin x, Fin y => Reqb x y
  | _, _ => false
  end.

(** Python's [max]: the first of the largest elements. *)
Definition pymax (l : list num) : option num :=
  match l with [] => None | a :: l' => Some (fold_left (fun m b => if flt m b then b else m) l' a) end.

(** [SumUnit.log_mode]; IndexError when no maximum compares equal to itself (nan). *)
Definition sum_log_mode (l : list (num * (event * num))) : option (event * num) :=
  match pymax (map (fun p => nadd (fst p) (snd (snd p))) l) with
  | None => None
  | Some m => match map (fun p => fst (snd p)) (filter (fun p => feq (nadd (fst p) (snd (snd p))) m) l) with
              | [] => None
              | E :: Es => Some (fold_left event_union Es E, m)
              end
  end.

(** [ProductUnit.log_mode]. *)
Definition prod_log_mode (l : list (event * num)) : option (event * num) :=
  match l with
  | [] => None
  | p :: l' => Some (fold_left event_inter (map fst l') (fst p), fold_left nadd (map snd l') (snd p))
  end.

Definition dist_log_mode (eps : R) (d : dist) : option (event * num) :=
  match mode1 eps d with None => None | Some (A, ll) => Some (leaf_event (dvar d) A, ll) end.

(** [ProbabilisticCircuit.log_mode] with check_determinism=True: IntractableError when the check fails.  [st] holds what
    earlier queries left behind: every unit writes its result before it is read.  [eps] is one step of [nextafter]. *)
Definition log_mode (eps : R) (g : graph dist) (st : store event) (st' : store (event * num))
  : option (event * num) :=
  match is_deterministic g st with
  | Some (true, _) => match run_pass (dist_log_mode eps) sum_log_mode prod_log_mode g st' with
                      | None => None
                      | Some (r, _) => Some r
                      end
  | _ => None
  end.

(** [ProbabilisticModel.mode] (probabilistic_model.py:137-151): the exponential of the log maximum. *)
Definition mode (eps : R) (g : graph dist) (st : store event) (st' : store (event * num)) : option (event * num) :=
  match log_mode eps g st st' with None => None | Some (E, m) => Some (E, nexp m) end.
