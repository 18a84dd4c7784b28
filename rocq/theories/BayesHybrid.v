(** * BayesHybrid: Bayesian networks whose leaves may be circuits

    Source: /repo/src/probabilistic_model/bayesian_network/distributions.py:206-286 (BD.py), bayesian_network.py:201-247 (BN.py).
    Networks with conditional probability tables only are in Bayes.v; here a node below a table (or below the root) may also be a
    [ConditionalProbabilisticCircuit]: one circuit over its own variables for every state of its parent.

    Simplifications: a circuit node has no child nodes (a child would ask it for the one variable it does not have, BD.py:75, 238);
    the circuits of different parent states share no units, and each of them is a tree; the network is converted once (the
    conversion works in place on the circuits of the node, BD.py:251, 230). *)
From Coq Require Import List Arith Bool Lia ZArith Reals.
From Verif Require Import Num Graph Spec Circuit Interval Dist Simplify Conditional Copy Heap Layout Mixture Interaction ConditionalEvent Bayes.
Import ListNotations.
Local Open Scope R_scope.

(** A node: a conditional probability table (BD.py:43-54) with its child nodes, or a circuit node (BD.py:206-223) with its
    variables, their domains, and the circuits by parent state, in the order of the dictionary. *)
Inductive hnode : Type :=
  | HTable (v : nat) (dom : list Z) (cpd : list (Z * dict)) (cs : list hnode)
  | HCircuit (vs : list (nat * evset)) (cpd : list (Z * pc dist)).

(** The network: RootDistribution (BD.py:16) with variable, domain and probabilities, and the child nodes. *)
Record hnetwork : Type := mkHNet { hn_var : nat; hn_dom : list Z; hn_probs : dict; hn_children : list hnode }.

(** The event's entry for the variable of a table. *)
Definition elements (A : evset) : list Z := match A with ESym l => l | EInt _ => [] end.

(** One turn of the loop in [joint_distribution_with_parent] (BD.py:240-253); KeyError if the parent has no such state.  [pv],
    [pdom] and [pm] are variable, domain and message of the parent. *)
Definition joint_part (pdom : list Z) (pv : nat) (pm : dict) (kt : Z * pc dist) : option (list (num * pc dist)) :=
  if negb (existsb (Z.eqb (fst kt)) pdom) then None
  else match sym_log_conditional pm [fst kt] with
       | (None, _) => Some []
       | (Some q, lp) => Some [(lp, PProd [PLeaf (DSym pv q); snd kt])]
       end.

(** [joint_distribution_with_parent] (BD.py:235-255). *)
Definition joint_with_parent (pdom : list Z) (pv : nat) (pm : dict) (cpd : list (Z * pc dist)) : option (pc dist) :=
  match mapM (joint_part pdom pv pm) cpd with
  | None => None
  | Some ls => Some (PSum (concat ls))
  end.

(** [ConditionalProbabilisticCircuit.forward_pass] (BD.py:228-233): the circuit of [forward_message], this unit, and the forward
    probability.  [None] also when the event is impossible or no variable is left: the result is then no circuit with a root.
    [marginal] (BD.py:232) works on a copy of the conditional circuit; the copy has the numbers of its original. *)
Definition circuit_forward (e : sevent) (pdom : list Z) (pv : nat) (pmsg : option dict) (vs : list (nat * evset)) (cpd : list (Z * pc dist)) : option (graph dist * id * num) :=
  match pmsg with
  | None => None
  | Some pm =>
      match joint_with_parent pdom pv pm cpd with
      | None => None
      | Some t =>
          match conditional_on e (layout t) empty_store with
          | Some (Some g, lp) =>
              match marginal_in_place (fun _ => false) marginal1 (map fst vs) g with
              | Some (Some g') => match root g' with Some r => Some (g', r, nexp lp) | None => None end
              | _ => None
              end
          | _ => None
          end
      end
  end.

(** The network after [forward_pass] (BN.py:149-155). *)
Inductive hfnode : Type :=
  | HFTable (v : nat) (dom : list Z) (cpd : list (Z * dict)) (msg : option dict) (fp : num) (cs : list hfnode)
  | HFCircuit (g : graph dist) (r : id) (fp : num).

(** The nodes below a node with variable [pv], domain [pdom] and message [pmsg]; tables as in Bayes.v. *)
Fixpoint hforward_below (e : sevent) (pdom : list Z) (pv : nat) (pmsg : option dict) (t : hnode) : option hfnode :=
  match t with
  | HTable v dom cpd cs =>
      match cpt_forward pmsg cpd (elements (e pv)) (elements (e v)) with
      | None => None
      | Some (msg, fp) =>
          match fold_right (fun c acc => match hforward_below e dom v msg c, acc with Some f, Some l => Some (f :: l) | _, _ => None end) (Some []) cs with
          | None => None
          | Some fs => Some (HFTable v dom cpd msg fp fs)
          end
      end
  | HCircuit vs cpd =>
      match circuit_forward e pdom pv pmsg vs cpd with
      | None => None
      | Some (g, r, fp) => Some (HFCircuit g r fp)
      end
  end.

Definition hforward_pass (e : sevent) (b : hnetwork) : option (option dict * num * list hfnode) :=
  let '(msg, fp) := root_forward (hn_probs b) (elements (e (hn_var b))) in
  match fold_right (fun c acc => match hforward_below e (hn_dom b) (hn_var b) msg c, acc with Some f, Some l => Some (f :: l) | _, _ => None end) (Some []) (hn_children b) with
  | None => None
  | Some fs => Some (msg, fp, fs)
  end.

(** [ConditionalProbabilisticCircuit.interaction_term] (BD.py:260-275): 0 stands for the latent variable of the parent, 1 for the
    one of the node. *)
Definition diagonal_term (pm : dict) : pc dist :=
  PSum (map (fun kw => (nlog (Fin (snd kw)), PProd [PLeaf (DSym 0 [(fst kw, 1)]); PLeaf (DSym 1 [(fst kw, 1)])])) pm).

(** Mounting the circuit of a circuit node (BN.py:237-245).  [child_sum_unit.latent_variable] needs a sum unit (PC.py:373-379);
    the assertion (BD.py:263) compares the domains of the two latent variables, which are the indices of the subcircuits. *)
Definition mount_circuit (pm : dict) (s : id) (g : graph dist) (h : graph dist) (o : id) (nx : nat) : option (graph dist * nat) :=
  match node_kind h o with
  | Some USum =>
      if (length (subcircuits h o) =? length (subcircuits g s))%nat
      then let t := diagonal_term pm in
           mount_with_interaction_terms dist_vars (fun i => ask t (own_is (length (subcircuits h o)) i)) (fun i j => ask t (both_are i j)) g h s o nx
      else None
  | _ => None
  end.

(** The circuit of a node after all edges below it were visited in reversed order (BN.py:216-245). *)
Fixpoint hnode_circuit (f : hfnode) (nx : nat) : option (graph dist * id * nat) :=
  match f with
  | HFCircuit g r _ => Some (shift nx g, (r + nx)%nat, (S (list_max (node_ids g)) + nx)%nat)
  | HFTable v dom cpd None _ cs => None
  | HFTable v dom cpd (Some m) _ cs =>
      match message_circuit v m nx with
      | None => None
      | Some (g, s, nx1) =>
          match fold_right (fun c acc =>
                  match acc with
                  | None => None
                  | Some (g, nx) =>
                      match hnode_circuit c nx with
                      | None => None
                      | Some (h, o, nx') =>
                          match c with
                          | HFTable _ dom' cpd' _ _ _ => mount_child dom m s g dom' cpd' h o nx'
                          | HFCircuit _ _ _ => mount_circuit m s g h o nx'
                          end
                      end
                  end) (Some (g, nx1)) cs with
          | None => None
          | Some (g', nx2) => Some (g', s, nx2)
          end
      end
  end.

(** The event that assigns every variable its domain (BN.py:211). *)
Fixpoint hnode_events (e : sevent) (t : hnode) : sevent :=
  match t with
  | HTable v dom _ cs => fold_left hnode_events cs (fun u => if (u =? v)%nat then ESym dom else e u)
  | HCircuit vs _ => fold_left (fun e vA u => if (u =? fst vA)%nat then snd vA else e u) vs e
  end.
Definition hfull_event (b : hnetwork) : sevent :=
  fold_left hnode_events (hn_children b) (fun u => if (u =? hn_var b)%nat then ESym (hn_dom b) else ESym []).

(** [as_probabilistic_circuit] (BN.py:201-247). *)
Definition hybrid_circuit (b : hnetwork) : option (graph dist) :=
  match hn_children b with
  | [] => None
  | _ =>
      match hforward_pass (hfull_event b) b with
      | Some (msg, fp, fs) =>
          match hnode_circuit (HFTable (hn_var b) (hn_dom b) [] msg fp fs) 0 with
          | Some (g, _, _) => Some g
          | None => None
          end
      | None => None
      end
  end.
