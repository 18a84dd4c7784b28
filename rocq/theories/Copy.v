(** * Copy: copying, JSON, equality and the decomposability check

    Models PC.py:96-165 (Unit.__eq__, empty_copy), 233-301 (LeafUnit), 310-337 (InnerUnit), 443-455 (SumUnit), 684-701
    (ProductUnit), 984-1056 and 1066-1095 (ProbabilisticCircuit), and the to_json / _from_json methods of
    src/probabilistic_model/distributions/ (D.py = distributions.py, U.py = uniform.py, G.py = gaussian.py). *)
From Coq Require Import List Arith Bool Lia Reals ZArith String.
From Verif Require Import Num Graph Circuit Interval Dist.
Import ListNotations.
Local Open Scope string_scope.
Local Open Scope nat_scope.

(** ** Copying *)

Section Copy.
Context {D : Type}.
Implicit Types g : graph D.

(** [self.edges] of networkx: the adjacency of every node, in node order. *)
Definition edges_iter g : list edge := flat_map (out_edges g) (node_ids g).

(** [ProbabilisticCircuit.log_weighted_edges] (PC.py:1066-1080): the edges that carry the attribute "log_weight". *)
Definition log_weighted_edges g : list edge :=
  filter (fun e => match e_lw e with Some _ => true | None => false end) (edges_iter g).

(** [ProbabilisticCircuit.unweighted_edges] (PC.py:1082-1095): the edges that do not carry the attribute "weight".  No
    edge of this code base does (the attribute is called "log_weight"), so these are all edges. *)
Definition unweighted_edges g : list edge := edges_iter g.

Definition empty_graph : graph D := mkGraph [] [].

(** [ProbabilisticCircuit.__copy__] (PC.py:1007-1017).  [nu u] is the new object made for [u]; the copy of a leaf
    (PC.py:261-262) holds a copy of its distribution, with the same parameters. *)
Definition circuit_copy (nu : id -> id) g : graph D :=
  let g0 := fold_left (fun acc p => add_node acc (nu (fst p)) (snd p)) (g_nodes g) empty_graph in
  let g1 := fold_left (fun acc e => add_edge acc (nu (e_src e)) (nu (e_dst e)) None) (unweighted_edges g) g0 in
  fold_left (fun acc e => add_edge acc (nu (e_src e)) (nu (e_dst e)) (e_lw e)) (log_weighted_edges g) g1.

(** ** The decomposability check *)

(** [InnerUnit.leaves] (PC.py:317-319), [LeafUnit.leaves] (PC.py:238-240), [ProbabilisticCircuit.leaves] (PC.py:761-763).
    The descendants of the root are a set in Python; the order is irrelevant for [all]. *)
Definition circuit_leaves g : option (list id) :=
  match root g with
  | None => None
  | Some r =>
    match node_kind g r with
    | Some (ULeaf _) => Some []
    | _ => match reachable_list g r with
           | None => None
           | Some rs => Some (filter (fun u => match node_kind g u with Some (ULeaf _) => true | _ => false end)
                                     (filter (fun u => negb (u =? r)) rs))
           end
    end
  end.

(** [ProductUnit.is_decomposable] (PC.py:684-690). *)
Fixpoint disjoint_later (vss : list (list nat)) : bool :=
  match vss with
  | [] => true
  | vs :: rest =>
      forallb (fun ws => negb (existsb (fun w => existsb (Nat.eqb w) vs) ws)) rest && disjoint_later rest
  end.

Definition product_is_decomposable (dvars : D -> list nat) g (u : id) : option bool :=
  match mapM (unit_variables dvars g (S (List.length (g_nodes g)))) (subcircuits g u) with
  | None => None
  | Some vss => Some (disjoint_later vss)
  end.

(** [ProbabilisticCircuit.is_decomposable] (PC.py:984-992): asks the product units among [self.leaves]. *)
Definition is_decomposable (dvars : D -> list nat) g : option bool :=
  match circuit_leaves g with
  | None => None
  | Some ls =>
    match mapM (product_is_decomposable dvars g)
               (filter (fun u => match node_kind g u with Some UProd => true | _ => false end) ls) with
    | None => None
    | Some bs => Some (forallb (fun b => b) bs)
    end
  end.

(** ** Equality *)

(** Equality of floats.  Two nan compare equal here, because [==] on tuples and lists tries object identity first. *)
Definition num_eqb (a b : num) : bool :=
  match a, b with
  | NaN, NaN | NInf, NInf | PInf, PInf => true
  | Fin x, Fin y => if Req_EM_T x y then true else false
  | _, _ => false
  end.

Section Eq.
Variable lclass : D -> nat.   (* the class of the leaf unit that holds the distribution (nx/helper.py:107-116) *)

(** [list.__eq__]: lengths first, then element by element up to the first difference. *)
Definition list_eq {A} (eq : A -> A -> option bool) : list A -> list A -> option bool :=
  fix go (l m : list A) : option bool :=
    match l, m with
    | [], [] => Some true
    | a :: l', b :: m' => match eq a b with
                          | None => None
                          | Some false => Some false
                          | Some true => go l' m'
                          end
    | _, _ => Some false
    end.
Definition py_list_eq {A} (eq : A -> A -> option bool) (l m : list A) : option bool :=
  if Nat.eqb (List.length l) (List.length m) then list_eq eq l m else Some false.

(** [SumUnit.log_weighted_subcircuits] (PC.py:358-363); KeyError without the attribute. *)
Definition lws g u : option (list (num * id)) :=
  mapM (fun e => match e_lw e with Some w => Some (w, e_dst e) | None => None end) (out_edges g u).

(** [Unit.__eq__] (PC.py:152-153) for leaves and products, [SumUnit.__eq__] (PC.py:446-447) for sums.  LeafUnit
    inherits the former, and its [subcircuits] is the empty list (PC.py:233-234).  [fuel] is the recursion depth. *)
Fixpoint unit_eq (fuel : nat) (ga gb : graph D) (u v : id) : option bool :=
  match fuel with
  | 0 => None
  | S n =>
    match node_kind ga u, node_kind gb v with
    | Some (ULeaf d), Some (ULeaf d') => Some (lclass d =? lclass d')
    | Some USum, Some USum =>
        match lws ga u, lws gb v with
        | Some l, Some m =>
            if Nat.eqb (List.length l) (List.length m)
            then (fix go (l m : list (num * id)) : option bool :=
                    match l, m with
                    | (w, c) :: l', (w', c') :: m' =>
                        if num_eqb w w'
                        then match unit_eq n ga gb c c' with
                             | None => None | Some false => Some false | Some true => go l' m' end
                        else Some false
                    | [], [] => Some true
                    | _, _ => Some false
                    end) l m
            else Some false
        | _, _ => None
        end
    | Some UProd, Some UProd => py_list_eq (unit_eq n ga gb) (subcircuits ga u) (subcircuits gb v)
    | Some _, Some _ => Some false
    | _, _ => None
    end
  end.

(** [ProbabilisticCircuit.__eq__] (PC.py:994-995). *)
Definition circuit_eq (ga gb : graph D) : option bool :=
  match root ga, root gb with
  | Some r, Some r' => unit_eq (S (List.length (g_nodes ga))) ga gb r r'
  | _, _ => None
  end.
End Eq.
End Copy.

(** [leaf] (nx/helper.py:107-116): distributions over continuous variables are held by UnivariateContinuousLeaf. *)
Definition leaf_class (d : dist) : nat :=
  match d with DSym _ _ | DInt _ _ => 1 | _ => 0 end.

(** ** JSON *)

(** The values that [json] can write; Python's json module writes and reads infinities and nan.  [JMap] is an object whose
    keys are integers (written as strings, read back with [int], PC.py:1047). *)
Inductive json : Type :=
| JNum (x : num)
| JInt (z : Z)
| JBool (b : bool)
| JStr (s : string)
| JArr (l : list json)
| JObj (l : list (string * json))
| JMap (l : list (Z * json)).

(** [data[key]]; None is KeyError / TypeError. *)
Definition jget (k : string) (j : json) : option json :=
  match j with
  | JObj l => match find (fun kv => String.eqb (fst kv) k) l with Some kv => Some (snd kv) | None => None end
  | _ => None
  end.

Definition jnum (j : json) : option num := match j with JNum x => Some x | _ => None end.
Definition jreal (j : json) : option R := match j with JNum (Fin x) => Some x | _ => None end.
Definition jint (j : json) : option Z := match j with JInt z => Some z | _ => None end.

Definition obind {A B} (o : option A) (k : A -> option B) : option B := match o with Some a => k a | None => None end.

(** Variables and simple intervals are serialised by the random_events package, which is not in this repository; assumed
    lossless. *)
Definition var_to_json (v : nat) : json := JInt (Z.of_nat v).
Definition var_of_json (j : json) : option nat := match j with JInt z => Some (Z.to_nat z) | _ => None end.
Definition sint_to_json (i : sint) : json := JArr [JNum (lo i); JNum (hi i); JBool (lc i); JBool (rc i)].
Definition sint_of_json (j : json) : option sint :=
  match j with JArr [JNum a; JNum b; JBool l; JBool r] => Some (mkSint a b l r) | _ => None end.

(** [to_json] of the distributions: D.py:61-62, 309-310, 593-594, U.py:95-96, G.py:113-114, 263-264.  "type" is the full
    class name written by SubclassJSONSerializer. *)
Definition dict_to_json (p : dict) : json := JArr (map (fun kv => JArr [JInt (fst kv); JNum (Fin (snd kv))]) p).

Definition dist_to_json (d : dist) : json :=
  match d with
  | DUnif v i => JObj [("type", JStr "UniformDistribution"); ("variable", var_to_json v); ("interval", sint_to_json i)]
  | DDirac v x cap => JObj [("type", JStr "DiracDeltaDistribution"); ("variable", var_to_json v);
                            ("location", JNum (Fin x)); ("density_cap", JNum cap)]
  | DGauss v mu s => JObj [("type", JStr "GaussianDistribution"); ("variable", var_to_json v);
                           ("location", JNum (Fin mu)); ("scale", JNum (Fin s))]
  | DTGauss v i mu s => JObj [("type", JStr "TruncatedGaussianDistribution"); ("variable", var_to_json v);
                              ("location", JNum (Fin mu)); ("scale", JNum (Fin s)); ("interval", sint_to_json i)]
  | DSym v p => JObj [("type", JStr "SymbolicDistribution"); ("variable", var_to_json v);
                      ("probabilities", dict_to_json p)]
  | DInt v p => JObj [("type", JStr "IntegerDistribution"); ("variable", var_to_json v);
                      ("probabilities", dict_to_json p)]
  end.

(** [_from_json]: D.py:312-318 (one assignment per item), 596-601, U.py:98-102, G.py:116-119, 266-270. *)
Definition dict_of_json (j : json) : option dict :=
  match j with
  | JArr l => foldM (fun acc item => match item with
                                     | JArr [JInt k; JNum (Fin q)] => Some (dset acc k q)
                                     | _ => None end) l []
  | _ => None
  end.

Definition jget_real (k : string) (j : json) : option R := obind (jget k j) jreal.
Definition jget_num (k : string) (j : json) : option num := obind (jget k j) jnum.
Definition jget_sint (k : string) (j : json) : option sint := obind (jget k j) sint_of_json.
Definition jget_dict (k : string) (j : json) : option dict := obind (jget k j) dict_of_json.

Definition dist_of_json (j : json) : option dist :=
  match jget "type" j, obind (jget "variable" j) var_of_json with
  | Some (JStr ty), Some v =>
      if String.eqb ty "UniformDistribution" then
        obind (jget_sint "interval" j) (fun i => Some (DUnif v i))
      else if String.eqb ty "DiracDeltaDistribution" then
        obind (jget_real "location" j) (fun x => obind (jget_num "density_cap" j) (fun c => Some (DDirac v x c)))
      else if String.eqb ty "GaussianDistribution" then
        obind (jget_real "location" j) (fun x => obind (jget_real "scale" j) (fun s => Some (DGauss v x s)))
      else if String.eqb ty "TruncatedGaussianDistribution" then
        obind (jget_sint "interval" j) (fun i =>
        obind (jget_real "location" j) (fun x => obind (jget_real "scale" j) (fun s => Some (DTGauss v i x s))))
      else if String.eqb ty "SymbolicDistribution" then
        obind (jget_dict "probabilities" j) (fun p => Some (DSym v p))
      else if String.eqb ty "IntegerDistribution" then
        obind (jget_dict "probabilities" j) (fun p => Some (DInt v p))
      else None
  | _, _ => None
  end.

(** [Unit.to_json] / [_from_json]: PC.py:293-301, 335-337, 449-452. *)
Definition unit_to_json (k : ukind dist) : json :=
  match k with
  | ULeaf d => JObj [("type", JStr (if leaf_class d =? 0 then "UnivariateContinuousLeaf" else "UnivariateDiscreteLeaf"));
                     ("distribution", dist_to_json d)]
  | USum => JObj [("type", JStr "SumUnit")]
  | UProd => JObj [("type", JStr "ProductUnit")]
  end.

Definition unit_of_json (j : json) : option (ukind dist) :=
  match jget "type" j with
  | Some (JStr ty) =>
      if String.eqb ty "SumUnit" then Some USum
      else if String.eqb ty "ProductUnit" then Some UProd
      else if String.eqb ty "UnivariateContinuousLeaf" || String.eqb ty "UnivariateDiscreteLeaf" then
        obind (jget "distribution" j) (fun dj => obind (dist_of_json dj) (fun d => Some (ULeaf d)))
      else None
  | _ => None
  end.

(** Assignment to a dictionary with integer keys, and lookup. *)
Definition zassign {A} (m : list (Z * A)) (k : Z) (a : A) : list (Z * A) :=
  if existsb (fun kv => Z.eqb (fst kv) k) m
  then map (fun kv => if Z.eqb (fst kv) k then (fst kv, a) else kv) m
  else m ++ [(k, a)].
Definition zlookup {A} (m : list (Z * A)) (k : Z) : option A :=
  match find (fun kv => Z.eqb (fst kv) k) m with Some kv => Some (snd kv) | None => None end.

(** [ProbabilisticCircuit.to_json] (PC.py:1019-1035); [h u] is the hash of the unit object [u] (PC.py:149-150: its
    identity). *)
Definition circuit_to_json (h : id -> Z) (g : graph dist) : json :=
  JObj [("type", JStr "ProbabilisticCircuit");
        ("hash_to_node_map",
           JMap (fold_left (fun m p => zassign m (h (fst p)) (unit_to_json (snd p))) (g_nodes g) []));
        ("unweighted_edges",
           JArr (map (fun e => JArr [JInt (h (e_src e)); JInt (h (e_dst e))]) (unweighted_edges g)));
        ("log_weighted_edges",
           JArr (map (fun e => JArr [JInt (h (e_src e)); JInt (h (e_dst e));
                                     JNum (match e_lw e with Some w => w | None => NaN end)])
                     (log_weighted_edges g)))].

(** [ProbabilisticCircuit._from_json] (PC.py:1040-1056).  [nu k] is the identity of the object created [k]-th. *)
Definition node_of_json (nu : nat -> id) (acc : graph dist * list (Z * id)) (kv : Z * json)
  : option (graph dist * list (Z * id)) :=
  match unit_of_json (snd kv) with
  | None => None
  | Some k => let u := nu (List.length (g_nodes (fst acc))) in
              Some (add_node (fst acc) u k, zassign (snd acc) (fst kv) u)
  end.

Definition edge_of_json (remap : list (Z * id)) (g : graph dist) (j : json) : option (graph dist) :=
  match j with
  | JArr [JInt a; JInt b] =>
      match zlookup remap a, zlookup remap b with
      | Some u, Some v => Some (add_edge g u v None) | _, _ => None end
  | _ => None
  end.

Definition weighted_edge_of_json (remap : list (Z * id)) (g : graph dist) (j : json) : option (graph dist) :=
  match j with
  | JArr [JInt a; JInt b; JNum w] =>
      match zlookup remap a, zlookup remap b with
      | Some u, Some v => Some (add_edge g u v (Some w)) | _, _ => None end
  | _ => None
  end.

Definition circuit_of_json (nu : nat -> id) (j : json) : option (graph dist) :=
  match jget "hash_to_node_map" j, jget "unweighted_edges" j, jget "log_weighted_edges" j with
  | Some (JMap ns), Some (JArr ues), Some (JArr wes) =>
      match foldM (node_of_json nu) ns (empty_graph, []) with
      | None => None
      | Some (g0, remap) =>
          match foldM (edge_of_json remap) ues g0 with
          | None => None
          | Some g1 => foldM (weighted_edge_of_json remap) wes g1
          end
      end
  | _, _, _ => None
  end.
