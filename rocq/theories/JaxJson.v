(** * JaxJson: layered circuits as JSON

    Source: /repo/src/probabilistic_model/probabilistic_circuit/jax/inner_layer.py (IL.py), input_layer.py (IN.py),
    gaussian_layer.py (GL.py), uniform_layer.py (UL.py), discrete_layer.py (DL.py) and probabilistic_circuit.py (JPC.py).

    Simplifications: numbers survive [tolist] and [jnp.array] unchanged.  [jnp.array] of the empty list is a vector of floats
    without elements whatever it was before; where the code needs a matrix of numbers or of integers this is no array of the
    right kind and reading yields None, even where Python fails only when the layer is used.  The flags [indices_sorted] and
    [unique_indices], which reading always sets (IL.py:374-375, 626-627), are not represented.  [from_json] of
    SubclassJSONSerializer (random_events) picks the class with the name stored under "type". *)
From Coq Require Import List Arith Bool Reals ZArith String.
From Verif Require Import Num Graph Circuit Dist JaxLayer Copy.
Import ListNotations.
Local Open Scope string_scope.
Local Open Scope nat_scope.

(** ** Arrays *)

Definition nat_to_json (n : nat) : json := JInt (Z.of_nat n).
Definition nat_of_json (j : json) : option nat := match j with JInt z => Some (Z.to_nat z) | _ => None end.
Definition vec_to_json (l : list num) : json := JArr (map JNum l).
Definition vec_of_json (j : json) : option (list num) := match j with JArr l => mapM jnum l | _ => None end.
Definition reals_to_json (l : list R) : json := JArr (map (fun x => JNum (Fin x)) l).
Definition reals_of_json (j : json) : option (list R) := match j with JArr l => mapM jreal l | _ => None end.

(** [tolist] and [jnp.array] of a matrix. *)
Definition rectangular {A} (rows : list (list A)) : bool :=
  match rows with [] => false | r :: _ => forallb (fun r' => List.length r' =? List.length r) rows end.
Definition mat_to_json (rows : list (list num)) : json := JArr (map vec_to_json rows).
Definition mat_of_json (j : json) : option (list (list num)) :=
  match j with
  | JArr l => match mapM vec_of_json l with Some rows => if rectangular rows then Some rows else None | None => None end
  | _ => None
  end.

(** The intervals of a uniform layer: a matrix with two columns. *)
Definition intervals_to_json (is : list (R * R)) : json := JArr (map (fun ab => JArr [JNum (Fin (fst ab)); JNum (Fin (snd ab))]) is).
Definition intervals_of_json (j : json) : option (list (R * R)) :=
  match j with
  | JArr [] => None
  | JArr l => mapM (fun r => match r with JArr [JNum (Fin a); JNum (Fin b)] => Some (a, b) | _ => None end) l
  | _ => None
  end.

(** The rows of a dense matrix and back (IL.py:503, 509). *)
Definition dense_to_json (w : dense) : json := mat_to_json (map (dense_row w) (seq 0 (d_rows w))).
Definition dense_of_json (j : json) : option dense :=
  match mat_of_json j with
  | Some rows => Some (mkDense (List.length rows) (List.length (hd [] rows)) (fun r c => nth c (nth r rows []) NaN))
  | None => None
  end.

(** [(lw.data.tolist(), lw.indices.tolist(), lw.shape)] (IL.py:368, 621) and [BCOO((jnp.array(..), jnp.array(..)), shape=..)]
    (IL.py:374-375, 626-627). *)
Definition bcoo_to_json {A} (f : A -> json) (w : sparse A) : json :=
  JArr [JArr (map (fun e => f (snd e)) (s_entries w));
        JArr (map (fun e => JArr [nat_to_json (fst (fst e)); nat_to_json (snd (fst e))]) (s_entries w));
        JArr [nat_to_json (s_rows w); nat_to_json (s_cols w)]].
Definition index_of_json (j : json) : option (nat * nat) :=
  match j with
  | JArr [a; b] => match nat_of_json a, nat_of_json b with Some r, Some c => Some (r, c) | _, _ => None end
  | _ => None
  end.
Definition bcoo_of_json {A} (f : json -> option A) (j : json) : option (sparse A) :=
  match j with
  | JArr [JArr data; JArr indices; JArr [rows; cols]] =>
      match mapM f data, mapM index_of_json indices, nat_of_json rows, nat_of_json cols with
      | Some data, Some indices, Some rows, Some cols =>
          if negb (List.length indices =? 0) && (List.length data =? List.length indices)
          then Some (mkSparse rows cols (combine indices data)) else None
      | _, _, _, _ => None
      end
  | _ => None
  end.

(** ** Layers *)

(** [to_json] of the input layers (IL.py:260-263, IN.py:78-81, 137-141, GL.py:76-79, DL.py:79-81); a Gaussian layer stores its
    logarithmic scales under "scale". *)
Definition input_to_json (v : nat) (i : input) : json :=
  match i with
  | IGauss loc ls ms => JObj [("type", JStr "GaussianLayer"); ("variable", nat_to_json v); ("location", reals_to_json loc);
                              ("scale", reals_to_json ls); ("min_scale", reals_to_json ms)]
  | IDiscrete ps => JObj [("type", JStr "DiscreteLayer"); ("variable", nat_to_json v); ("log_probabilities", mat_to_json ps)]
  | IUniform is => JObj [("type", JStr "UniformLayer"); ("variable", nat_to_json v); ("interval", intervals_to_json is)]
  | IDirac loc cap => JObj [("type", JStr "DiracDeltaLayer"); ("variable", nat_to_json v); ("location", reals_to_json loc);
                            ("density_cap", vec_to_json cap)]
  end.

(** [to_json] of the inner layers (IL.py:235-238, 366-369, 501-504, 619-622). *)
Fixpoint layer_to_json (L : layer) : json :=
  match L with
  | LInput v i => input_to_json v i
  | LSparse ws cs => JObj [("type", JStr "SparseSumLayer"); ("child_layers", JArr (map layer_to_json cs));
                           ("log_weights", JArr (map (bcoo_to_json JNum) ws))]
  | LDense ws cs => JObj [("type", JStr "DenseSumLayer"); ("child_layers", JArr (map layer_to_json cs));
                          ("log_weights", JArr (map dense_to_json ws))]
  | LProd edges cs => JObj [("type", JStr "ProductLayer"); ("child_layers", JArr (map layer_to_json cs));
                            ("edges", bcoo_to_json nat_to_json edges)]
  end.

(** [_from_json] of the input layers (IN.py:143-145, GL.py:81-84, UL.py:65-67, DL.py:83-85). *)
Definition input_of_json (ty : string) (j : json) : option layer :=
  obind (obind (jget "variable" j) nat_of_json) (fun v =>
  if String.eqb ty "GaussianLayer" then
    obind (obind (jget "location" j) reals_of_json) (fun loc =>
    obind (obind (jget "scale" j) reals_of_json) (fun ls =>
    obind (obind (jget "min_scale" j) reals_of_json) (fun ms => Some (LInput v (IGauss loc ls ms)))))
  else if String.eqb ty "DiscreteLayer" then
    obind (obind (jget "log_probabilities" j) mat_of_json) (fun ps => Some (LInput v (IDiscrete ps)))
  else if String.eqb ty "UniformLayer" then
    obind (obind (jget "interval" j) intervals_of_json) (fun is => Some (LInput v (IUniform is)))
  else if String.eqb ty "DiracDeltaLayer" then
    obind (obind (jget "location" j) reals_of_json) (fun loc =>
    obind (obind (jget "density_cap" j) vec_of_json) (fun cap => Some (LInput v (IDirac loc cap))))
  else None).

Definition list_of_json {A} (f : json -> option A) (j : json) : option (list A) :=
  match j with JArr l => mapM f l | _ => None end.

(** [_from_json] of the inner layers (IL.py:371-376, 506-510, 624-629) from the child layers already read.  The constructor of
    a product layer asks for its variables (IL.py:569-570) and raises if there is no child layer (IL.py:593). *)
Definition inner_of_json (ty : string) (j : json) (children : option (list layer)) : option layer :=
  obind children (fun cs =>
  if String.eqb ty "SparseSumLayer" then
    obind (obind (jget "log_weights" j) (list_of_json (bcoo_of_json jnum))) (fun ws => Some (LSparse ws cs))
  else if String.eqb ty "DenseSumLayer" then
    obind (obind (jget "log_weights" j) (list_of_json dense_of_json)) (fun ws => Some (LDense ws cs))
  else if String.eqb ty "ProductLayer" then
    obind (obind (jget "edges" j) (bcoo_of_json nat_of_json)) (fun edges => if List.length cs =? 0 then None else Some (LProd edges cs))
  else None).

Definition is_input_class (ty : string) : bool :=
  String.eqb ty "GaussianLayer" || String.eqb ty "DiscreteLayer" || String.eqb ty "UniformLayer" || String.eqb ty "DiracDeltaLayer".

(** [Layer.from_json]; the inner loop is [[Layer.from_json(c) for c in data["child_layers"]]]. *)
Fixpoint layer_of_json (j : json) : option layer :=
  match jget "type" j with
  | Some (JStr ty) =>
      if is_input_class ty then input_of_json ty j
      else inner_of_json ty j
        match j with
        | JObj fields =>
            (fix children (fields : list (string * json)) : option (list layer) :=
               match fields with
               | [] => None
               | (k, v) :: fields' =>
                   if String.eqb k "child_layers" then match v with JArr l => mapM layer_of_json l | _ => None end
                   else children fields'
               end) fields
        | _ => None
        end
  | _ => None
  end.

(** ** Circuits *)

(** [ProbabilisticCircuit.to_json] and [_from_json] (JPC.py:93-103); a circuit is its sorted set of variables and its root. *)
Definition jax_circuit_to_json (vars : list nat) (root : layer) : json :=
  JObj [("type", JStr "ProbabilisticCircuit"); ("variables", JArr (map var_to_json vars)); ("root", layer_to_json root)].
Definition jax_circuit_of_json (j : json) : option (list nat * layer) :=
  obind (obind (jget "variables" j) (list_of_json var_of_json)) (fun vars =>
  obind (obind (jget "root" j) layer_of_json) (fun root => Some (sset_of vars, root))).
