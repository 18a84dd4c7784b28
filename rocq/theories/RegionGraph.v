(** * RegionGraph: random region graphs

    Source: /repo/src/probabilistic_model/learning/region_graph/region_graph.py (RG.py).

    Simplifications: a variable is its position in the sorted set of all variables, so [self.variables.index] is the
    identity.  Node objects are numbered in the order in which they enter the graph.  [np.random.shuffle] is a function
    [shuffle] that may do anything to the array; the number of the partition node tells the calls apart.
    [jax.random.uniform(key, shape)] is a function of the shape (the key is always the same) into the unit interval,
    stretched to [minval, maxval).  None stands for an exception. *)
From Coq Require Import List Arith Bool Lia Reals ZArith.
From Verif Require Import Num Graph Circuit Interval Dist JaxLayer.
Import ListNotations.
Local Open Scope nat_scope.

(** ** Graphs *)

(** Region (RG.py:21-40) and Partition (RG.py:43-48). *)
Inductive rnode := Region (vs : list nat) | Partition.

Record rgraph := mkRG { r_nodes : list rnode; r_edges : list (nat * nat) }.

(** [successors] and [predecessors], in the order of insertion. *)
Definition successors (g : rgraph) (u : nat) : list nat := map snd (filter (fun e => fst e =? u) (r_edges g)).
Definition predecessors (g : rgraph) (u : nat) : list nat := map fst (filter (fun e => snd e =? u) (r_edges g)).

(** [add_edge(u, node)] with a node that is not in the graph yet. *)
Definition add_child (u : nat) (x : rnode) (g : rgraph) : rgraph :=
  mkRG (r_nodes g ++ [x]) (r_edges g ++ [(u, length (r_nodes g))]).

(** ** Partitions *)

(** [np.array_split(l, k)]: the first [len(l) % k] parts have one element more; zero parts raise ValueError. *)
Fixpoint cut {A} (sizes : list nat) (l : list A) : list (list A) :=
  match sizes with
  | [] => []
  | s :: sizes' => firstn s l :: cut sizes' (skipn s l)
  end.
Definition array_split {A} (l : list A) (k : nat) : option (list (list A)) :=
  match k with
  | O => None
  | _ => let n := length l in Some (cut (repeat (S (n / k)) (n mod k) ++ repeat (n / k) (k - n mod k)) l)
  end.

(** [Region.random_partition] (RG.py:33-37): the variables of the new regions. *)
Definition random_partition (shuffle : list nat -> list nat) (variables : list nat) (k : nat) : option (list (list nat)) :=
  match array_split (shuffle (seq 0 (length variables))) k with
  | None => None
  | Some splits => mapM (fun split => match mapM (nth_error variables) split with None => None | Some vs => Some (sset_of vs) end) splits
  end.

(** ** Creation *)

Record item := mkRItem { i_region : nat; i_level : nat; i_partition : nat }.

(** The inner loop (RG.py:147-151) over the new regions. *)
Fixpoint add_regions (partition level : nat) (regions : list (list nat)) (g : rgraph) (queue : list item) : rgraph * list item :=
  match regions with
  | [] => (g, queue)
  | vs :: rest =>
      let r := length (r_nodes g) in
      let p := S r in
      add_regions partition level rest (add_child r Partition (add_child partition (Region vs) g)) (queue ++ [mkRItem r level p])
  end.

(** The loop of [recursive_split] (RG.py:134-151). *)
Fixpoint split_loop (shuffle : nat -> list nat -> list nat) (k : nat) (fuel : nat) (g : rgraph) (queue : list item) : option rgraph :=
  match queue with
  | [] => Some g
  | it :: rest =>
      match fuel with
      | O => None
      | S fuel' =>
          match nth_error (r_nodes g) (i_region it) with
          | Some (Region vs) =>
              if length vs =? 1 then split_loop shuffle k fuel' g rest
              else match i_level it with
                   | O => split_loop shuffle k fuel' (fold_left (fun g v => add_child (i_partition it) (Region [v]) g) vs g) rest
                   | S level =>
                       match random_partition (shuffle (i_partition it)) vs k with
                       | None => None
                       | Some regions => let '(g', queue') := add_regions (i_partition it) level regions g rest in split_loop shuffle k fuel' g' queue'
                       end
                   end
          | _ => None
          end
      end
  end.

(** [recursive_split] (RG.py:124-151) of the root, which is node 0. *)
Definition recursive_split (shuffle : nat -> list nat -> list nat) (k depth fuel : nat) (g : rgraph) : option rgraph :=
  split_loop shuffle k fuel (add_child 0 Partition g) [mkRItem 0 depth (length (r_nodes g))].

(** [create_random_region_graph] (RG.py:98-106). *)
Fixpoint repeat_split (shuffle : nat -> list nat -> list nat) (k depth fuel : nat) (repetitions : nat) (g : rgraph) : option rgraph :=
  match repetitions with
  | O => Some g
  | S n => match recursive_split shuffle k depth fuel g with None => None | Some g' => repeat_split shuffle k depth fuel n g' end
  end.
Definition create_random_region_graph (shuffle : nat -> list nat -> list nat) (n k depth repetitions fuel : nat) : option rgraph :=
  repeat_split shuffle k depth fuel repetitions (mkRG [Region (seq 0 n)] []).

(** ** Conversion *)

(** [root] (RG.py:153-161). *)
Definition region_root (g : rgraph) : option nat :=
  match filter (fun u => length (predecessors g u) =? 0) (seq 0 (length (r_nodes g))) with
  | [u] => Some u
  | _ => None
  end.

(** [nx.bfs_layers]: the next layer has the children that were not visited yet, in order of discovery. *)
Fixpoint unvisited (l visited : list nat) : list nat :=
  match l with
  | [] => []
  | u :: l' => if existsb (Nat.eqb u) visited then unvisited l' visited else u :: unvisited l' (u :: visited)
  end.
Fixpoint bfs_layers (g : rgraph) (fuel : nat) (layer visited : list nat) : list (list nat) :=
  match fuel, layer with
  | O, _ | _, [] => []
  | S fuel', _ =>
      let next := unvisited (concat (map (successors g) layer)) visited in
      layer :: bfs_layers g fuel' next (next ++ visited)
  end.

(** The types of variables; [Symbolic] with the number of its states. *)
Inductive rkind := RContinuous | RSymbolic (states : nat) | RInteger.

Section AsCircuit.
Variable kind : nat -> rkind.
Variable uniform1 : nat -> nat -> R.
Variable uniform2 : nat * nat -> nat -> nat -> R.
Variables classes input_units sum_units : nat.

Definition between (lo hi u : R) : R := (lo + u * (hi - lo))%R.

(** The input layer of a region without children (RG.py:181-199). *)
Definition leaf_layer (vs : list nat) : option layer :=
  match vs with
  | [] => None
  | v :: _ =>
      match kind v with
      | RContinuous =>
          let L := LInput v (IGauss (map (fun i => between (-1) 1 (uniform1 input_units i)) (seq 0 input_units))
                                    (map (fun i => ln (between (5 / 10) 3 (uniform1 input_units i))) (seq 0 input_units))
                                    (repeat (1 / 10)%R input_units)) in
          if validate L then Some L else None
      | RSymbolic states =>
          Some (LInput v (IDiscrete (map (fun i => map (fun j => nlog (Fin (between (1 / 10) 1 (uniform2 (input_units, states) i j)))) (seq 0 states)) (seq 0 input_units))))
      | RInteger => None
      end
  end.

(** The sum layer of a region with children (RG.py:201-210); [units] is the number of classes for the root.  The code
    overwrites [sum_units] there, which is the last node it visits. *)
Definition sum_layer (units : nat) (children : list layer) : option layer :=
  let L := LDense (map (fun c => mkDense units (number_of_nodes c) (fun i j => nlog (Fin (between (1 / 10) 1 (uniform2 (units, number_of_nodes c) i j))))) children) children in
  if validate L then Some L else None.

(** The product layer of a partition (RG.py:212-220). *)
Definition product_layer (children : list layer) : option layer :=
  match sset_of (map number_of_nodes children) with
  | [n] =>
      let L := LProd (mkSparse (length children) n (concat (map (fun i => map (fun j => (i, j, j)) (seq 0 n)) (seq 0 (length children))))) children in
      if validate L then Some L else None
  | _ => None
  end.

(** The body of the loop (RG.py:176-220); [layers] has the layers of the nodes visited so far. *)
Definition lookup_layer (layers : list (nat * layer)) (u : nat) : option layer :=
  match find (fun ul => fst ul =? u) layers with Some (_, L) => Some L | None => None end.
Definition node_layer (g : rgraph) (layers : list (nat * layer)) (u : nat) : option layer :=
  match nth_error (r_nodes g) u with
  | None => None
  | Some (Region vs) =>
      match successors g u with
      | [] => leaf_layer vs
      | children =>
          match mapM (lookup_layer layers) children with
          | None => None
          | Some ls => sum_layer (if length (predecessors g u) =? 0 then classes else sum_units) ls
          end
      end
  | Some Partition =>
      match mapM (lookup_layer layers) (successors g u) with
      | None => None
      | Some ls => product_layer ls
      end
  end.
Fixpoint visit_nodes (g : rgraph) (order : list nat) (layers : list (nat * layer)) : option (list (nat * layer)) :=
  match order with
  | [] => Some layers
  | u :: order' => match node_layer g layers u with None => None | Some L => visit_nodes g order' ((u, L) :: layers) end
  end.

(** [as_probabilistic_circuit] (RG.py:164-227): the root layer of the model. *)
Definition as_probabilistic_circuit (g : rgraph) : option layer :=
  match region_root g with
  | None => None
  | Some root =>
      match visit_nodes g (concat (rev (bfs_layers g (S (length (r_nodes g))) [root] [root]))) [] with
      | None => None
      | Some layers => lookup_layer layers root
      end
  end.
End AsCircuit.
