(** * JaxFromNx: networkx circuits as layered circuits

    Source: /repo/src/probabilistic_model/probabilistic_circuit/jax/probabilistic_circuit.py (JPC.py), inner_layer.py (IL.py),
    input_layer.py (IN.py), gaussian_layer.py (GL.py), uniform_layer.py (UL.py), discrete_layer.py (DL.py), utils.py (JU.py).

    Simplifications: numbers are idealised (Num.v), float32 copies are exact; the neighbours of a number that [jnp.nextafter]
    yields are arguments ([before], [after]).  The orders in which Python visits its sets of classes and scopes are arguments
    ([orders]); the set of depths is visited in ascending order, as CPython does with small numbers.  The hash of a unit is its
    number.  [domain v] is the number of elements of the domain of variable [v].  The progress bar changes nothing.  None
    stands for an exception. *)
From Coq Require Import List Arith Bool Lia Reals ZArith.
From Verif Require Import Num Graph Circuit Interval Dist JaxLayer.
Import ListNotations.
Local Open Scope nat_scope.

(** The classes that [type(node)] and [type(node.distribution)] distinguish (IL.py:137). *)
Inductive utype := TSum | TProd | TUnif | TDirac | TGauss | TTGauss | TSym | TInt.
Definition utype_eq (a b : utype) : {a = b} + {a <> b}. Proof. decide equality. Defined.
Definition dist_type (d : dist) : utype :=
  match d with DUnif _ _ => TUnif | DDirac _ _ _ => TDirac | DGauss _ _ _ => TGauss | DTGauss _ _ _ _ => TTGauss | DSym _ _ => TSym | DInt _ _ => TInt end.
Definition unit_type (k : ukind dist) : utype := match k with ULeaf d => dist_type d | USum => TSum | UProd => TProd end.

(** [isinstance] (IL.py:139-140): TruncatedGaussianDistribution is a subclass of GaussianDistribution (G.py:132). *)
Definition instance_of (k : ukind dist) (t : utype) : bool :=
  if utype_eq (unit_type k) t then true else match unit_type k, t with TTGauss, TGauss => true | _, _ => false end.

Definition is_leaf (k : ukind dist) : bool := match k with ULeaf _ => true | _ => false end.

(** [NXConverterLayer] (IL.py:690-697): a layer and the units it was made from.  [hash_remap] sends a unit to its position. *)
Record converted := mkConverted { c_layer : layer; c_nodes : list id }.
Definition hash_remap (c : converted) (u : id) : option nat := var_index (c_nodes c) u.

Definition scope_eq (a b : list nat) : {a = b} + {a <> b} := list_eq_dec Nat.eq_dec a b.

Section FromNx.
Variable domain : nat -> nat.
Variables before after : R -> R.

(** ** Input layers *)

Definition finite (x : num) : option R := match x with Fin r => Some r | _ => None end.

(** [simple_interval_to_open_array] (JU.py:20-27).  The bounds of a uniform distribution are finite. *)
Definition open_array (i : sint) : option (R * R) :=
  match finite (lo i), finite (hi i) with
  | Some a, Some b => Some (if lc i then before a else a, if rc i then after b else b)
  | _, _ => None
  end.

(** [parameters[row, state] = value] (DL.py:73-74): negative indices count from the end, others beyond it raise. *)
Definition state_index (n : nat) (s : Z) : option nat :=
  if ((0 <=? s) && (s <? Z.of_nat n))%Z then Some (Z.to_nat s)
  else if ((- Z.of_nat n <=? s) && (s <? 0))%Z then Some (Z.to_nat (s + Z.of_nat n)) else None.
Fixpoint set_at (i : nat) (v : R) (l : list R) : list R :=
  match l, i with
  | [], _ => []
  | _ :: l', O => v :: l'
  | x :: l', S i' => x :: set_at i' v l'
  end.
Definition probability_row (n : nat) (p : dict) : option (list R) :=
  foldM (fun row kv => match state_index n (fst kv) with None => None | Some i => Some (set_at i (snd kv) row) end) p (repeat 0%R n).

Definition dists (g : graph dist) (nodes : list id) : option (list dist) :=
  mapM (fun u => match node_kind g u with Some (ULeaf d) => Some d | _ => None end) nodes.

(** [create_layer_from_nodes_with_same_type_and_scope] of the input layers (GL.py:58-73, UL.py:48-62, DL.py:58-78,
    IN.py:124-133).  [inverse_class_of] (IL.py:30-36) finds no layer for an integer distribution.  The scale of a Gaussian
    layer is [exp(log_scale) + min_scale] with a minimum scale of 0.01. *)
Definition create_input (t : utype) (ds : list dist) : option input :=
  match t with
  | TGauss | TTGauss =>
      match mapM (fun d => match d with DGauss _ m s | DTGauss _ _ m s => Some (m, s) | _ => None end) ds with
      | None => None
      | Some ps => Some (IGauss (map fst ps) (map (fun p => ln (snd p)) ps) (map (fun _ => 1 / 100)%R ps))
      end
  | TUnif =>
      match mapM (fun d => match d with DUnif _ i => open_array i | _ => None end) ds with
      | None => None
      | Some ps => Some (IUniform ps)
      end
  | TSym =>
      match mapM (fun d => match d with DSym v p => probability_row (domain v) p | _ => None end) ds with
      | None => None
      | Some rows => Some (IDiscrete (map (map (fun q => nlog (Fin q))) rows))
      end
  | TDirac =>
      match mapM (fun d => match d with DDirac _ l c => Some (l, c) | _ => None end) ds with
      | None => None
      | Some ps => Some (IDirac (map fst ps) (map snd ps))
      end
  | _ => None
  end.

Section Circuit.
Variable g : graph dist.
Variable vars : list nat.       (* probabilistic_circuit.variables *)

Definition scope (u : id) : option (list nat) := unit_variables dist_vars g (S (length (g_nodes g))) u.

Definition create_input_layer (t : utype) (nodes : list id) : option converted :=
  match dists g nodes with
  | Some ((d :: _) as ds) =>
      match var_index vars (dvar d), create_input t ds with
      | Some v, Some i => Some (mkConverted (LInput v i) nodes)
      | _, _ => None
      end
  | _ => None
  end.

(** ** Sum layers *)

(** [(child_layer.layer.variables == variables).all()] (IL.py:391-392).  Vectors of one element are stretched, vectors of
    other lengths that differ cannot be compared. *)
Definition same_vector (a b : list nat) : option bool :=
  if length a =? length b then Some (list_eqb a b)
  else match a, b with
       | [x], _ => Some (forallb (Nat.eqb x) b)
       | _, [y] => Some (forallb (Nat.eqb y) a)
       | _, _ => None
       end.
Fixpoint same_scope (vs : list nat) (cs : list converted) : option (list converted) :=
  match cs with
  | [] => Some []
  | c :: cs' =>
      match same_vector (variables (c_layer c)) vs, same_scope vs cs' with
      | Some b, Some l => Some (if b then c :: l else l)
      | _, _ => None
      end
  end.

(** [enumerate] *)
Definition enumerate {A} (l : list A) : list (nat * A) := combine (seq 0 (length l)) l.

(** The entries of one node for one child layer (IL.py:405-408); [log_weighted_subcircuits] raises if a weight is missing. *)
Definition sum_entries (c : converted) (iu : nat * id) : option (list (nat * nat * num)) :=
  match mapM (fun e => match e_lw e with None => None | Some w => Some (w, e_dst e) end) (out_edges g (snd iu)) with
  | None => None
  | Some ws => Some (flat_map (fun wc => match hash_remap c (snd wc) with None => [] | Some k => [(fst iu, k, fst wc)] end) ws)
  end.

(** The weight matrix for one child layer (IL.py:396-413).  A matrix without entries gets an index array of rank one, with
    which nothing can be evaluated; it is treated as an exception here. *)
Definition weight_matrix (nodes : list id) (c : converted) : option (sparse num) :=
  match mapM (sum_entries c) (enumerate nodes) with
  | None => None
  | Some es =>
      match concat es with
      | [] => None
      | entries => Some (mkSparse (length nodes) (number_of_nodes (c_layer c)) entries)
      end
  end.

(** [SparseSumLayer.create_layer_from_nodes_with_same_type_and_scope] (IL.py:378-416); a sum layer without child layers
    raises when it looks up its variables (IL.py:286-290). *)
Definition create_sum_layer (children : list converted) (nodes : list id) : option converted :=
  match nodes with
  | [] => None
  | u :: _ =>
      match scope u with
      | None => None
      | Some own =>
          match mapM (var_index vars) own with
          | None => None
          | Some vs =>
              match same_scope vs children with
              | None | Some [] => None
              | Some filtered =>
                  match mapM (weight_matrix nodes) filtered with
                  | None => None
                  | Some ws => Some (mkConverted (LSparse ws (map c_layer filtered)) nodes)
                  end
              end
          end
      end
  end.

(** ** Product layers *)

(** The edges of one node to one child layer (IL.py:646-656): every subcircuit with the scope of the layer must be in it. *)
Definition product_entries (iu : nat * id) (kc : nat * converted) : option (list (nat * nat * nat)) :=
  match mapM (nth_error vars) (variables (c_layer (snd kc))) with
  | None => None
  | Some names =>
      match mapM (fun s => match scope s with
                           | None => None
                           | Some vs => if scope_eq (sset_of names) vs
                                        then match hash_remap (snd kc) s with None => None | Some k => Some [(fst kc, fst iu, k)] end
                                        else Some []
                           end) (subcircuits g (snd iu)) with
      | None => None
      | Some es => Some (concat es)
      end
  end.
Definition all_product_entries (nodes : list id) (children : list converted) : option (list (nat * nat * nat)) :=
  match mapM (fun iu => mapM (product_entries iu) (enumerate children)) (enumerate nodes) with
  | None => None
  | Some es => Some (concat (map (@concat _) es))
  end.

(** [sort_indices().sum_duplicates(remove_zeros=False)] (IL.py:661-662). *)
Definition key_le (a b : nat * nat) : bool := (fst a <? fst b) || ((fst a =? fst b) && (snd a <=? snd b)).
Fixpoint insert_entry (e : nat * nat * nat) (l : list (nat * nat * nat)) : list (nat * nat * nat) :=
  match l with
  | [] => [e]
  | x :: l' => if key_le (fst e) (fst x) then e :: l else x :: insert_entry e l'
  end.
Definition sort_entries (l : list (nat * nat * nat)) : list (nat * nat * nat) := fold_right insert_entry [] l.
Fixpoint sum_duplicates (l : list (nat * nat * nat)) : list (nat * nat * nat) :=
  match l with
  | [] => []
  | (k, v) :: l' =>
      match sum_duplicates l' with
      | (k', v') :: r => if (fst k =? fst k') && (snd k =? snd k') then (k, v + v') :: r else (k, v) :: (k', v') :: r
      | [] => [(k, v)]
      end
  end.

(** [ProductLayer.create_layer_from_nodes_with_same_type_and_scope] (IL.py:631-666): all child layers become children.
    Sorting no entries at all raises. *)
Definition create_product_layer (children : list converted) (nodes : list id) : option converted :=
  match all_product_entries nodes children with
  | None | Some [] => None
  | Some entries =>
      Some (mkConverted (LProd (mkSparse (length children) (length nodes) (sum_duplicates (sort_entries entries))) (map c_layer children)) nodes)
  end.

(** ** All layers of one depth *)

Definition kinds (nodes : list id) : option (list (id * ukind dist)) :=
  mapM (fun u => match node_kind g u with None => None | Some k => Some (u, k) end) nodes.

Definition create_layer (t : utype) (children : list converted) (nodes : list id) : option converted :=
  match t with
  | TSum => create_sum_layer children nodes
  | TProd => create_product_layer children nodes
  | _ => create_input_layer t nodes
  end.

(** The nodes of one class, scope by scope (IL.py:148-157). *)
Definition create_by_scope (order : list (list nat) -> list (list nat)) (t : utype) (children : list converted) (nodes : list id) : option (list converted) :=
  match mapM (fun u => match scope u with None => None | Some s => Some (u, s) end) nodes with
  | None => None
  | Some us =>
      mapM (fun s => create_layer t children (map fst (filter (fun us => if scope_eq (snd us) s then true else false) us)))
           (order (nodup scope_eq (map snd us)))
  end.

(** One class (IL.py:138-146): if the first unit of the depth is a leaf, the class is looked up again at the first instance,
    which raises if that is no leaf. *)
Definition create_by_type (order : utype -> list (list nat) -> list (list nat)) (children : list converted) (ks : list (id * ukind dist)) (t : utype) : option (list converted) :=
  let own := filter (fun uk => instance_of (snd uk) t) ks in
  match ks, own with
  | (_, first) :: _, (_, k) :: _ =>
      if is_leaf first
      then (if is_leaf k then create_by_scope (order t) (unit_type k) children (map fst own) else None)
      else create_by_scope (order t) t children (map fst own)
  | _, _ => None
  end.

(** [Layer.create_layers_from_nodes] (IL.py:128-157). *)
Definition create_layers (type_order : list utype -> list utype) (scope_order : utype -> list (list nat) -> list (list nat))
    (nodes : list id) (children : list converted) : option (list converted) :=
  match kinds nodes with
  | None => None
  | Some ks =>
      match mapM (create_by_type scope_order children ks) (type_order (nodup utype_eq (map (fun uk => unit_type (snd uk)) ks))) with
      | None => None
      | Some cs => Some (concat cs)
      end
  end.
End Circuit.

(** The orders of the sets, one for every depth. *)
Record orders := mkOrders { type_order : nat -> list utype -> list utype; scope_order : nat -> utype -> list (list nat) -> list (list nat) }.

(** [ProbabilisticCircuit.from_nx] (JPC.py:48-75).  [nx.single_source_shortest_path] visits the units breadth first, so the
    units of one depth come as in [nx.bfs_layers]; the loop runs from the greatest depth to the root.  [from_depth] is the
    loop over the remaining depths, of which [ls] are the units. *)
Fixpoint from_depth (o : orders) (g : graph dist) (vars : list nat) (depth : nat) (ls : list (list id)) : option (list converted) :=
  match ls with
  | [] => Some []
  | nodes :: ls' =>
      match from_depth o g vars (S depth) ls' with
      | None => None
      | Some children => create_layers g vars (type_order o depth) (scope_order o depth) nodes children
      end
  end.
Definition from_nx (o : orders) (g : graph dist) : option (list nat * layer) :=
  match circuit_variables dist_vars g, layers g with
  | Some vars, Some ls =>
      match from_depth o g vars 1 ls with
      | Some (c :: _) => Some (vars, c_layer c)
      | _ => None
      end
  | _, _ => None
  end.
End FromNx.
