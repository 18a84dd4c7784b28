(** * Classification: layered circuits with one root node per class

    Source: /repo/src/probabilistic_model/probabilistic_circuit/jax/probabilistic_circuit.py (JPC.py) and inner_layer.py (IL.py).

    Simplifications: names of variables are numbers, a sorted set of variables is a sorted list.  The cached [_variables] of
    inner layers are reset and computed again (JPC.py:179-180, 198-200), here they are always computed.  A sparse array whose
    data do not have the length of its indices is no array: None.  Labels are not negative. *)
From Coq Require Import List Arith Bool Reals.
From Verif Require Import Num Graph Circuit Dist JaxLayer.
Import ListNotations.
Local Open Scope nat_scope.

(** [__deepcopy__] (IL.py:361-364, 496-499, 614-617, GL.py:33-34, IN.py:83-84); NotImplementedError (IL.py:99-103) for Dirac and discrete layers. *)
Fixpoint deepcopy (L : layer) : option layer :=
  match L with
  | LInput v (IGauss loc ls ms) => Some (LInput v (IGauss loc ls ms))
  | LInput v (IUniform is) => Some (LInput v (IUniform is))
  | LInput _ (IDiscrete _) | LInput _ (IDirac _ _) => None
  | LSparse ws cs => match mapM deepcopy cs with None => None | Some cs' => Some (LSparse ws cs') end
  | LDense ws cs => match mapM deepcopy cs with None => None | Some cs' => Some (LDense ws cs') end
  | LProd edges cs => match mapM deepcopy cs with None => None | Some cs' => Some (LProd edges cs') end
  end.

(** [jnp.where(layer.variables >= class_variable_index, layer.variables + 1, layer.variables)] on every input layer (JPC.py:175-182). *)
Fixpoint update_variables (class_variable_index : nat) (L : layer) : layer :=
  match L with
  | LInput v i => LInput (if class_variable_index <=? v then v + 1 else v) i
  | LSparse ws cs => LSparse ws (map (update_variables class_variable_index) cs)
  | LDense ws cs => LDense ws (map (update_variables class_variable_index) cs)
  | LProd edges cs => LProd edges (map (update_variables class_variable_index) cs)
  end.

(** [BCOO.fromdense(jnp.ones((rows, cols)))] with [.data = data]; the indices are in row-major order. *)
Definition full {A} (rows cols : nat) (data : list A) : option (sparse A) :=
  let indices := concat (map (fun r => map (fun c => (r, c)) (seq 0 cols)) (seq 0 rows)) in
  if length data =? length indices then Some (mkSparse rows cols (combine indices data)) else None.

(** [jnp.log(jnp.eye(n))]. *)
Definition log_eye (n : nat) : list (list num) := map (fun i => map (fun j => nlog (Fin (if i =? j then 1 else 0)%R)) (seq 0 n)) (seq 0 n).

(** [ClassificationCircuit.as_probabilistic_circuit] (JPC.py:145-202); [states] is the number of states of the class variable. *)
Definition as_probabilistic_circuit (vars : list nat) (root : layer) (class_variable states : nat) (class_probabilities : option (list R)) : option (list nat * layer) :=
  if states =? number_of_nodes root then
    let number_of_classes := number_of_nodes root in
    let new_variables := sset_union vars [class_variable] in
    match var_index new_variables class_variable with
    | None => None
    | Some class_variable_index =>
        let probabilities := match class_probabilities with Some p => p | None => repeat (1 / INR number_of_classes)%R number_of_classes end in
        match deepcopy root with
        | None => None
        | Some copied =>
            let copied_root := update_variables class_variable_index copied in
            let distribution_layer := LInput class_variable_index (IDiscrete (log_eye number_of_classes)) in
            match full 2 number_of_classes (seq 0 number_of_classes ++ seq 0 number_of_classes), full 1 number_of_classes (map (fun p => nlog (Fin p)) probabilities) with
            | Some edges, Some root_weights => Some (new_variables, LSparse [root_weights] [LProd edges [copied_root; distribution_layer]])
            | _, _ => None
            end
        end
    end
  else None.

(** The loss of [fit] (JPC.py:218-221): [-jnp.mean(log_probs[y])], where [log_probs[y]] takes the rows with the numbers [y]. *)
Definition mean (l : list num) : num := ndiv (nsum l) (Fin (INR (length l))).
Definition loss (L : layer) (x : list (list R)) (y : list nat) : option num :=
  match mapM (ll L) x with
  | None => None
  | Some log_probs => match mapM (gather log_probs) y with None => None | Some rows => Some (nopp (mean (concat rows))) end
  end.

(** The loss of [ProbabilisticCircuit.fit] (JPC.py:116-118): [-jnp.mean(ll)]. *)
Definition generative_loss (L : layer) (x : list (list R)) : option num :=
  match mapM (ll L) x with None => None | Some lls => Some (nopp (mean (concat lls))) end.
