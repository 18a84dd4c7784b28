(** * Heap: circuits as mutable objects that may share parts

    The other model files treat a circuit as a value.  Here units, distributions and probability dictionaries are objects
    with an identity, circuits refer to them, and the methods read and write them.  This is the level at which copying and
    aliasing are visible.
    Models PC.py:117-126 (mount), 261-301 (LeafUnit), 852-945 (conditioning and marginalising), 972-977, 1007-1017
    (__copy__), 1108-1122, 1282-1288 (translate, scale) and the distribution methods D.py:225-235, 320-351, 379-393,
    496-506, 590-591, 618-622, U.py:92-93, G.py:110-126, 260-261, 363-365. *)
From Coq Require Import List Arith Bool Lia ZArith Reals.
From Verif Require Import Num Graph Circuit Interval Dist Simplify Conditional Copy.
Import ListNotations.
Local Open Scope nat_scope.

Definition addr := nat.

(** A distribution object.  The fields of a continuous distribution are numbers and an interval object that no method of
    this repository modifies in place (translate and scale assign a new one, D.py:225-235), so they are values here.
    A discrete distribution refers to its dictionary object: [ODisc true] is a SymbolicDistribution, [ODisc false] an
    IntegerDistribution.  Simplification: the class-level default dictionary (D.py:243) is not modelled. *)
Inductive dobj : Type :=
| OCont (d : dist)
| ODisc (symbolic : bool) (v : nat) (p : addr).

(** All objects; an address is a position.  Objects are never freed. *)
Record heap : Type := mkHeap { h_units : list (ukind addr); h_dists : list dobj; h_dicts : list dict }.

(** A circuit object: its units in insertion order and its edges (networkx keeps the edges inside the circuit). *)
Record circ : Type := mkCirc { c_units : list id; c_edges : list edge }.

Fixpoint set_nth {A} (l : list A) (n : nat) (a : A) : list A :=
  match l, n with
  | [], _ => []
  | _ :: l', 0 => a :: l'
  | x :: l', S n' => x :: set_nth l' n' a
  end.

Definition alloc_dict (H : heap) (p : dict) : heap * addr :=
  (mkHeap (h_units H) (h_dists H) (h_dicts H ++ [p]), List.length (h_dicts H)).
Definition alloc_dist (H : heap) (d : dobj) : heap * addr :=
  (mkHeap (h_units H) (h_dists H ++ [d]) (h_dicts H), List.length (h_dists H)).
Definition write_dict (H : heap) (a : addr) (p : dict) : heap :=
  mkHeap (h_units H) (h_dists H) (set_nth (h_dicts H) a p).
Definition write_dist (H : heap) (a : addr) (d : dobj) : heap :=
  mkHeap (h_units H) (set_nth (h_dists H) a d) (h_dicts H).
Definition write_unit (H : heap) (u : id) (k : ukind addr) : heap :=
  mkHeap (set_nth (h_units H) u k) (h_dists H) (h_dicts H).

(** The parameters of the distribution object at [a]. *)
Definition read_dist (H : heap) (a : addr) : option dist :=
  match nth_error (h_dists H) a with
  | None => None
  | Some (OCont d) => Some d
  | Some (ODisc s v p) =>
      match nth_error (h_dicts H) p with
      | None => None
      | Some q => Some (if s then DSym v q else DInt v q)
      end
  end.

Definition unit_view (H : heap) (u : id) : option (id * ukind dist) :=
  match nth_error (h_units H) u with
  | None => None
  | Some USum => Some (u, USum)
  | Some UProd => Some (u, UProd)
  | Some (ULeaf a) => match read_dist H a with None => None | Some d => Some (u, ULeaf d) end
  end.

(** What a circuit is at the moment: the value that every query of the other model files reads. *)
Definition view (H : heap) (c : circ) : option (graph dist) :=
  match mapM (unit_view H) (c_units c) with
  | None => None
  | Some ns => Some (mkGraph ns (c_edges c))
  end.

(** The same with references to the distributions; structural operations work on this. *)
Definition ref_graph (H : heap) (c : circ) : graph addr :=
  mkGraph (map (fun u => (u, nth u (h_units H) USum)) (c_units c)) (c_edges c).

(** Writing back what an operation did to its units; units created on the way get their cells first. *)
Definition grow (H : heap) (n : nat) : heap :=
  mkHeap (h_units H ++ repeat USum (n - List.length (h_units H))) (h_dists H) (h_dicts H).
Definition write_units (H : heap) (g : graph addr) : heap :=
  fold_left (fun h p => write_unit h (fst p) (snd p)) (g_nodes g) H.
Definition circ_of (g : graph addr) : circ := mkCirc (node_ids g) (g_edges g).
Definition commit (H : heap) (nx : nat) (g : graph addr) : heap * circ := (write_units (grow H nx) g, circ_of g).

(** ** Distribution methods *)

(** [__copy__]: U.py:92-93, G.py:110, 260-261, D.py:590-591 pass the same parameters on; D.py:350-351 passes the same
    dictionary object on. *)
Definition h_dist_copy (H : heap) (a : addr) : option (heap * addr) :=
  match nth_error (h_dists H) a with
  | None => None
  | Some o => Some (alloc_dist H o)
  end.

(** [DiscreteDistribution.normalize] (D.py:320-326): writes into the dictionary object. *)
Definition h_dist_normalize (H : heap) (a : addr) : option heap :=
  match nth_error (h_dists H) a with
  | Some (ODisc _ _ p) =>
      match nth_error (h_dicts H) p with
      | None => None
      | Some q => Some (write_dict H p (dnormalize q))
      end
  | _ => None
  end.

(** The end of [log_conditional_of_composite_set] (D.py:340-348, 386-393): a new dictionary [q], a new distribution, and
    [result.normalize()]. *)
Definition h_finish_discrete (H : heap) (s : bool) (v : nat) (q : dict) : option (heap * lres addr) :=
  if Reqb (Rsum (vals q)) 0 then Some (H, LDead)
  else
    let '(H1, p) := alloc_dict H q in
    let '(H2, a) := alloc_dist H1 (ODisc s v p) in
    match h_dist_normalize H2 a with
    | None => None
    | Some H3 => Some (H3, LOne a (nlog (Fin (Rsum (vals q)))))
    end.

Definition h_alloc_part (x : heap * list (num * addr)) (wd : num * dist) : heap * list (num * addr) :=
  (fst (alloc_dist (fst x) (OCont (snd wd))), snd x ++ [(fst wd, snd (alloc_dist (fst x) (OCont (snd wd))))]).
Definition h_alloc_parts (H : heap) (l : list (num * dist)) : heap * list (num * addr) :=
  fold_left h_alloc_part l (H, []).

(** Conditioning the distribution at [a] on the set [A] (PC.py:258-259, L.py:24-82): discrete distributions as above;
    continuous distributions are replaced by new objects. *)
Definition h_leaf_cond (H : heap) (A : evset) (a : addr) : option (heap * lres addr) :=
  match nth_error (h_dists H) a with
  | None => None
  | Some (OCont d) =>
      match leaf_cond d A with
      | None => None
      | Some LDead => Some (H, LDead)
      | Some (LOne d' lp) => let '(H1, a') := alloc_dist H (OCont d') in Some (H1, LOne a' lp)
      | Some (LMany l lp) => let '(H1, l') := h_alloc_parts H l in Some (H1, LMany l' lp)
      end
  | Some (ODisc s v p) =>
      match nth_error (h_dicts H) p, s, A with
      | Some q, true, ESym l => h_finish_discrete H true v (sym_cond_dict q l)
      | Some q, false, EInt A => h_finish_discrete H false v (int_cond_dict q A)
      | _, _, _ => None
      end
  end.

(** [translate] (D.py:225-229, 496-500, 618-619, G.py:125-126, 363-365) and [scale] (D.py:231-235, 502-506, 621-622) of
    the distribution at [a]: fields of the object are assigned; integer distributions get a new dictionary object. *)
Definition h_dist_move (f : dist -> option dist) (H : heap) (a : addr) : option heap :=
  match nth_error (h_dists H) a with
  | None => None
  | Some (OCont d) => match f d with None => None | Some d' => Some (write_dist H a (OCont d')) end
  | Some (ODisc s v p) =>
      match nth_error (h_dicts H) p with
      | None => None
      | Some q => match f (if s then DSym v q else DInt v q) with
                  | None => None
                  | Some (DInt _ q') => let '(H1, p') := alloc_dict H q' in Some (write_dist H1 a (ODisc s v p'))
                  | Some _ => Some H
                  end
      end
  end.

(** ** Circuit methods *)

(** [LeafUnit.__copy__] (PC.py:261-262), [empty_copy] of inner units (PC.py:158-165, 454-455, 700-701). *)
Definition h_copy_unit (H0 : heap) (x : heap * list (id * ukind addr)) (u : id) : option (heap * list (id * ukind addr)) :=
  match nth_error (h_units H0) u with
  | None => None
  | Some (ULeaf a) =>
      match h_dist_copy (fst x) a with
      | None => None
      | Some (H1, a') => Some (H1, snd x ++ [(u, ULeaf a')])
      end
  | Some k => Some (fst x, snd x ++ [(u, k)])
  end.

(** The position of a unit in the list of units. *)
Fixpoint unit_pos (l : list id) (u : id) : nat :=
  match l with [] => u | x :: l' => if x =? u then 0 else S (unit_pos l' u) end.

(** [ProbabilisticCircuit.__copy__] (PC.py:1007-1017). *)
Definition h_copy (H : heap) (c : circ) : option (heap * circ) :=
  match foldM (h_copy_unit H) (c_units c) (H, []) with
  | None => None
  | Some (H1, ns) =>
      let base := List.length (h_units H) in
      Some (commit H1 (base + List.length (c_units c))
                   (circuit_copy (fun u => base + unit_pos (c_units c) u) (mkGraph ns (c_edges c))))
  end.

(** The pass of [log_conditional_of_simple_event_in_place] (PC.py:859-866) over objects; see [unit_conditional]. *)
Definition h_unit_conditional (e : sevent) (x : heap * (graph addr * store num * nat)) (u : id)
  : option (heap * (graph addr * store num * nat)) :=
  match node_kind (fst (fst (snd x))) u with
  | Some (ULeaf a) =>
      match read_dist (fst x) a with
      | None => None
      | Some d =>
          match h_leaf_cond (fst x) (e (dvar d)) a with
          | None => None
          | Some (H1, r) => match leaf_conditional (fun _ => Some r) (snd x) u a with
                            | None => None
                            | Some y => Some (H1, y)
                            end
          end
      end
  | _ => match unit_conditional (fun _ => None) (snd x) u with None => None | Some y => Some (fst x, y) end
  end.

(** The circuit after the removal of impossible units (PC.py:869-870). *)
Definition without_impossible {D} (g1 : graph D) (st1 : store num) : option (graph D) :=
  match bottom_up g1 with
  | None => None
  | Some order1 => foldM remove_node (filter (result_is_ninf st1) order1) g1
  end.

(** [log_conditional_of_simple_event_in_place] (PC.py:852-880).  Result: the circuit afterwards, the log probability if
    the return value is not None, and the stored results. *)
Definition h_conditional_simple (e : sevent) (st : store num) (H : heap) (c : circ)
  : option (heap * circ * option num * store num) :=
  let g := ref_graph H c in
  match bottom_up g with
  | None => None
  | Some order =>
    match foldM (h_unit_conditional e) order (H, (g, st, List.length (h_units H))) with
    | None => None
    | Some (H1, (g1, st1, nx)) =>
      match conditional_finish g1 st1 with
      | None => None
      | Some (Some g5, lp) => Some (commit H1 nx g5, Some lp, st1)
      | Some (None, _) => match without_impossible g1 st1 with
                          | None => None
                          | Some g2 => Some (commit H1 nx g2, None, st1)
                          end
      end
    end
  end.

(** [add_edges_and_nodes_from_circuit] (PC.py:1114-1122). *)
Definition add_circuit {D} (g other : graph D) : graph D :=
  let g0 := fold_left (fun acc p => add_node acc (fst p) (snd p)) (g_nodes other) g in
  let g1 := fold_left (fun acc e => add_edge acc (e_src e) (e_dst e) None) (unweighted_edges other) g0 in
  fold_left (fun acc e => add_edge acc (e_src e) (e_dst e) (e_lw e)) (log_weighted_edges other) g1.

(** [SumUnit.add_subcircuit] with mounting (PC.py:117-126, 378-396): the root of [other], everything it reaches, and an
    edge to it. *)
Definition mount_root {D} (s : id) (acc : graph D) (other : graph D) (lp : num) : option (graph D * id) :=
  match root other with
  | None => None
  | Some r => match remove_unreachable_nodes other r with
              | None => None
              | Some sub => Some (add_edge (add_circuit acc sub) s r (Some lp), r)
              end
  end.

(** [log_probability > -np.inf]; comparisons with nan are false. *)
Definition gt_ninf (v : num) : bool := match v with Fin _ | PInf => true | NaN | NInf => false end.

(** The conditional circuit of every simple set, each on a copy (PC.py:904-905); impossible ones are dropped
    (PC.py:911-912). *)
Fixpoint h_conditionals (es : list sevent) (sts : list (store num)) (H : heap) (c : circ)
  : option (heap * list (circ * num * store num)) :=
  match es with
  | [] => Some (H, [])
  | e :: es' =>
    match h_copy H c with
    | None => None
    | Some (H1, c1) =>
      match h_conditional_simple e (hd empty_store sts) H1 c1 with
      | None => None
      | Some (H2, c2, lp, st) =>
        match h_conditionals es' (tl sts) H2 c with
        | None => None
        | Some (H3, l) => Some (H3, match lp with
                                    | Some v => if gt_ninf v then (c2, v, st) :: l else l
                                    | None => l end)
        end
      end
    end
  end.

Definition h_mount_one (s : id) (H : heap) (x : graph addr * list (num * num)) (cps : circ * num * store num)
  : option (graph addr * list (num * num)) :=
  match mount_root s (fst x) (ref_graph H (fst (fst cps))) (snd (fst cps)) with
  | None => None
  | Some (g, r) => match snd cps r with
                   | None => None
                   | Some v => Some (g, snd x ++ [(snd (fst cps), v)])
                   end
  end.
Definition h_mount_all (s : id) (H : heap) (l : list (circ * num * store num)) : option (graph addr * list (num * num)) :=
  foldM (h_mount_one s H) l (mkGraph [(s, USum)] [], []).

(** [log_conditional_in_place] (PC.py:882-928).  An event is a list of simple sets.  The second component is the log
    probability if the return value is not None. *)
Definition h_conditional_in_place (es : list sevent) (sts : list (store num)) (H : heap) (c : circ)
  : option (heap * circ * option num) :=
  match es with
  | [] => Some (H, mkCirc [] [], None)
  | [e] => match h_conditional_simple e (hd empty_store sts) H c with
           | None => None
           | Some (H1, c1, lp, _) => Some (H1, c1, lp)
           end
  | _ =>
    match h_conditionals es sts H c with
    | None => None
    | Some (H1, []) => Some (H1, mkCirc [] [], None)
    | Some (H1, l) =>
        let s := List.length (h_units H1) in
        match h_mount_all s H1 l with
        | None => None
        | Some (g, vs) =>
          match sum_log_forward vs, sum_normalize g s with
          | Some v, Some g' => Some (commit H1 (S s) g', Some v)
          | _, _ => None
          end
        end
    end
  end.

(** [marginal_in_place] (PC.py:934-941); a leaf asks its distribution for its variable and keeps the same distribution
    object (PC.py:281-288, D.py:52-56).  The boolean tells whether the return value is not None. *)
Definition h_marg (H : heap) (vs : list nat) (a : addr) : option addr :=
  match read_dist H a with
  | Some d => if existsb (Nat.eqb (dvar d)) vs then Some a else None
  | None => None
  end.

Definition h_marginal_in_place (vs : list nat) (H : heap) (c : circ) : option (heap * circ * bool) :=
  let g := ref_graph H c in
  match marginal_in_place (fun _ => false) (h_marg H) vs g with
  | None => None
  | Some (Some g') => Some (commit H 0 g', true)
  | Some None => match marginal_loop (h_marg H) vs g with
                 | None => None
                 | Some (g1, _) => Some (commit H 0 g1, false)
                 end
  end.

(** [simplify] (PC.py:972-977) and [normalize] (PC.py:1108-1112). *)
Definition h_simplify (H : heap) (c : circ) : option (heap * circ) :=
  match simplify (fun _ => false) (ref_graph H c) with None => None | Some g => Some (commit H 0 g) end.
Definition h_normalize (H : heap) (c : circ) : option (heap * circ) :=
  match normalize (ref_graph H c) with None => None | Some g => Some (commit H 0 g) end.

(** [for leaf in self.leaves: leaf.distribution.m(...)] (PC.py:1282-1288).  The loop stops at the first leaf that
    raises; what was done before stays done. *)
Fixpoint h_each_leaf (f : heap -> addr -> option heap) (H : heap) (g : graph addr) (ls : list id) : heap :=
  match ls with
  | [] => H
  | u :: ls' =>
    match node_kind g u with
    | Some (ULeaf a) => match f H a with None => H | Some H1 => h_each_leaf f H1 g ls' end
    | _ => H
    end
  end.

(** [translation[self.variable]]: KeyError for a missing variable. *)
Definition h_translate (t : nat -> option R) (H : heap) (c : circ) : option (heap * circ) :=
  let g := ref_graph H c in
  match circuit_leaves g with
  | None => None
  | Some ls => Some (h_each_leaf (fun H a => h_dist_move (fun d => match t (dvar d) with
                                                                  | None => None | Some r => translate1 r d end)
                                                         H a) H g ls, c)
  end.
Definition h_scale (s : nat -> option R) (H : heap) (c : circ) : option (heap * circ) :=
  let g := ref_graph H c in
  match circuit_leaves g with
  | None => None
  | Some ls => Some (h_each_leaf (fun H a => h_dist_move (fun d => match s (dvar d) with
                                                                  | None => None | Some r => scale1 r d end)
                                                         H a) H g ls, c)
  end.

(** The operations that change a circuit in place. *)
Inductive op : Type :=
| OpConditional (es : list sevent) (sts : list (store num))
| OpMarginal (vs : list nat)
| OpSimplify
| OpNormalize
| OpTranslate (t : nat -> option R)
| OpScale (s : nat -> option R).

Definition run_op (x : heap * circ) (o : op) : option (heap * circ) :=
  match o with
  | OpConditional es sts => match h_conditional_in_place es sts (fst x) (snd x) with
                            | None => None | Some (H, c, _) => Some (H, c) end
  | OpMarginal vs => match h_marginal_in_place vs (fst x) (snd x) with
                     | None => None | Some (H, c, _) => Some (H, c) end
  | OpSimplify => h_simplify (fst x) (snd x)
  | OpNormalize => h_normalize (fst x) (snd x)
  | OpTranslate t => h_translate t (fst x) (snd x)
  | OpScale s => h_scale s (fst x) (snd x)
  end.
Definition run_ops (os : list op) (x : heap * circ) : option (heap * circ) := foldM run_op os x.

(** [log_conditional] (PC.py:930-932) and [marginal] (PC.py:943-945): copy, then change the copy. *)
Definition h_log_conditional (es : list sevent) (sts : list (store num)) (H : heap) (c : circ)
  : option (heap * circ * option num) :=
  match h_copy H c with
  | None => None
  | Some (H1, c1) => h_conditional_in_place es sts H1 c1
  end.

(** [conditional] (probabilistic_model.py:173-184): the same with the probability itself. *)
Definition h_conditional (es : list sevent) (sts : list (store num)) (H : heap) (c : circ)
  : option (heap * circ * num) :=
  match h_log_conditional es sts H c with
  | None => None
  | Some (H1, c1, lp) => Some (H1, c1, match lp with Some v => nexp v | None => Fin 0 end)
  end.

Definition h_marginal (vs : list nat) (H : heap) (c : circ) : option (heap * circ * bool) :=
  match h_copy H c with
  | None => None
  | Some (H1, c1) => h_marginal_in_place vs H1 c1
  end.
