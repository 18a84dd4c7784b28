(** * Bayes: tree-shaped discrete Bayesian networks

    Source: /repo/src/probabilistic_model/bayesian_network/distributions.py (BD.py) and bayesian_network.py (BN.py); the
    conditional of a symbolic distribution is distributions/distributions.py:379-394 (D.py).

    A network is its tree: a root distribution and, below it, conditional probability tables.  networkx holds the nodes in
    dictionaries and the code follows them breadth first (BN.py:154, 220); the model follows the tree.  A node's message
    depends on its parent's message only, and a node's circuit is complete when all nodes below it are mounted, so the order
    in which different branches are visited only changes the numbers of new units.  Variables are numbers, the states of a
    variable are the hashes of the elements of its domain. *)
From Coq Require Import List Arith Bool Lia ZArith Reals.
From Verif Require Import Num Graph Spec Circuit Interval Dist Simplify Conditional Copy Heap Layout Mixture Interaction.
Import ListNotations.
Local Open Scope R_scope.

(** ConditionalProbabilityTable (BD.py:43-54): variable, its domain, [conditional_probability_distributions], child nodes. *)
Inductive cpt : Type := CPT (v : nat) (dom : list Z) (cpd : list (Z * dict)) (cs : list cpt).

(** The network: RootDistribution (BD.py:16) with variable, domain and probabilities, and the child nodes. *)
Record network : Type := mkNet { n_var : nat; n_dom : list Z; n_probs : dict; n_children : list cpt }.

(** [SymbolicDistribution.log_conditional_of_composite_set] (D.py:379-394). *)
Definition sym_log_conditional (p : dict) (l : list Z) : option dict * num :=
  let q := sym_cond_dict p l in
  if Reqb (Rsum (vals q)) 0 then (None, NInf) else (Some (dnormalize q), nlog (Fin (Rsum (vals q)))).

(** [RootDistribution.forward_pass] (BD.py:25-27). *)
Definition root_forward (p : dict) (ev : list Z) : option dict * num :=
  let '(m, lp) := sym_log_conditional p ev in (m, nexp lp).

(** [d[k]] of a plain dictionary; KeyError if missing. *)
Definition row_of (cpd : list (Z * dict)) (s : Z) : option dict :=
  match find (fun kr => Z.eqb (fst kr) s) cpd with Some kr => Some (snd kr) | None => None end.

(** [probabilities[state] += w * probability] for all entries (BD.py:91-92). *)
Definition add_entries (w : R) (c : dict) (acc : dict) : dict :=
  fold_left (fun a kq => dset a (fst kq) (dget a (fst kq) + w * snd kq)) c acc.

(** One parent state (BD.py:75-93). *)
Definition parent_turn (m : dict) (cpd : list (Z * dict)) (ev : list Z) (acc : dict * num) (s : Z) : option (dict * num) :=
  let pp := dget m s in
  if Reqb pp 0 then Some acc
  else match row_of cpd s with
       | None => None
       | Some row =>
           match sym_log_conditional row ev with
           | (None, _) => Some acc
           | (Some c, lp) => Some (add_entries pp c (fst acc), nadd (snd acc) (nmul (Fin pp) (nexp lp)))
           end
       end.

(** [ConditionalProbabilityTable.forward_pass] (BD.py:60-104): the message and the forward probability.  [pev] and [ev] are
    the event's entries for the parent's and the own variable. *)
Definition cpt_forward (pmsg : option dict) (cpd : list (Z * dict)) (pev ev : list Z) : option (option dict * num) :=
  match pmsg with
  | None => Some (None, Fin 0)
  | Some m =>
      match foldM (parent_turn m cpd ev) pev ([], Fin 0) with
      | None => None
      | Some (p, fp) => Some (if Reqb (Rsum (vals p)) 0 then None else Some (dnormalize p), fp)
      end
  end.

(** The network after [forward_pass] (BN.py:149-155): every node with its message and its forward probability. *)
Inductive fnode : Type := FNode (v : nat) (dom : list Z) (cpd : list (Z * dict)) (msg : option dict) (fp : num) (cs : list fnode).

(** The nodes below a node with variable [pv] and message [pmsg]. *)
Fixpoint forward_below (e : nat -> list Z) (pv : nat) (pmsg : option dict) (t : cpt) : option fnode :=
  match t with
  | CPT v dom cpd cs =>
      match cpt_forward pmsg cpd (e pv) (e v) with
      | None => None
      | Some (msg, fp) =>
          match fold_right (fun c acc => match forward_below e v msg c, acc with Some f, Some l => Some (f :: l) | _, _ => None end) (Some []) cs with
          | None => None
          | Some fs => Some (FNode v dom cpd msg fp fs)
          end
      end
  end.

Definition forward_pass (e : nat -> list Z) (b : network) : option (option dict * num * list fnode) :=
  let '(msg, fp) := root_forward (n_probs b) (e (n_var b)) in
  match fold_right (fun c acc => match forward_below e (n_var b) msg c, acc with Some f, Some l => Some (f :: l) | _, _ => None end) (Some []) (n_children b) with
  | None => None
  | Some fs => Some (msg, fp, fs)
  end.

(** The leaf of a state of the own variable (BD.py:135-141): the uniform distribution over the domain, conditioned on the
    state; KeyError for a state outside of the domain. *)
Definition state_leaf (dom : list Z) (k : Z) : option dict :=
  if existsb (Z.eqb k) dom then fst (sym_log_conditional (map (fun z => (z, 1 / INR (length dom))) dom) [k]) else None.

(** [joint_distribution_with_parent] (BD.py:126-163), with the two variables replaced by the latent variables
    (BD.py:169-174): 0 stands for the one of the parent, 1 for the one of the node.  [pdom] and [pm] are domain and message of
    the parent.  Simplifications: the leaf of a state of the own variable is one object used by several products, here every
    product has its own; replacing the variable of a leaf without distribution raises an AttributeError (PC.py:102-105),
    here it is raised when the leaf is made. *)
Definition row_terms (pdom : list Z) (pm : dict) (dom : list Z) (kr : Z * dict) : option (list (num * list dist)) :=
  if negb (existsb (Z.eqb (fst kr)) pdom) then None
  else
    let '(pd, lp) := sym_log_conditional pm [fst kr] in
    mapM (fun kq => match pd, state_leaf dom (fst kq) with
                    | Some q, Some q' => Some (nadd lp (nlog (Fin (snd kq))), [DSym 0 q; DSym 1 q'])
                    | _, _ => None
                    end) (snd kr).

Definition interaction_term (pdom : list Z) (pm : dict) (dom : list Z) (cpd : list (Z * dict)) : option (pc dist) :=
  match mapM (row_terms pdom pm dom) cpd with
  | None => None
  | Some ls => Some (PSum (map (fun wl => (fst wl, PProd (map PLeaf (snd wl)))) (concat ls)))
  end.

(** The probability the interaction term gives to an event. *)
Definition ask (t : pc dist) (e : sevent) : option num :=
  match probability_of_simple_event (dist_prob e) (layout t) empty_store with Some (p, _) => Some p | None => None end.

Definition zrange (n : nat) : list Z := map Z.of_nat (seq 0 n).

(** "the latent variable of the parent is i" (PC.py:479-480), where the other one has [m] states, and "... and the latent
    variable of the node is j" (PC.py:506-507). *)
Definition own_is (m i : nat) : sevent := fun v => if (v =? 0)%nat then ESym [Z.of_nat i] else ESym (zrange m).
Definition both_are (i j : nat) : sevent := fun v => if (v =? 0)%nat then ESym [Z.of_nat i] else ESym [Z.of_nat j].

(** [UnivariateDiscreteLeaf(message).as_deterministic_sum()] (BD.py:165-167, BN.py:233-234): circuit, sum unit, next number. *)
Definition message_circuit (v : nat) (m : dict) (nx : nat) : option (graph dist * id * nat) :=
  match as_deterministic_sum (mkGraph [(nx, ULeaf (DSym v m))] []) nx (S nx) with
  | None => None
  | Some (g, s) => Some (g, s, (nx + 2 + length m)%nat)
  end.

(** Mounting the circuit [h] with sum unit [o] of a child into the circuit [g] with sum unit [s] of its parent (BN.py:237-245). *)
Definition mount_child (pdom : list Z) (pm : dict) (s : id) (g : graph dist) (dom : list Z) (cpd : list (Z * dict))
    (h : graph dist) (o : id) (nx : nat) : option (graph dist * nat) :=
  match interaction_term pdom pm dom cpd with
  | None => None
  | Some t =>
      mount_with_interaction_terms dist_vars (fun i => ask t (own_is (length (subcircuits h o)) i)) (fun i j => ask t (both_are i j)) g h s o nx
  end.

(** The circuit of a node after all edges below it were visited in reversed order (BN.py:216-245). *)
Fixpoint node_circuit (f : fnode) (nx : nat) : option (graph dist * id * nat) :=
  match f with
  | FNode v dom cpd None _ cs => None
  | FNode v dom cpd (Some m) _ cs =>
      match message_circuit v m nx with
      | None => None
      | Some (g, s, nx1) =>
          match fold_right (fun c acc =>
                  match acc with
                  | None => None
                  | Some (g, nx) =>
                      match node_circuit c nx with
                      | None => None
                      | Some (h, o, nx') => match c with FNode _ dom' cpd' _ _ _ => mount_child dom m s g dom' cpd' h o nx' end
                      end
                  end) (Some (g, nx1)) cs with
          | None => None
          | Some (g', nx2) => Some (g', s, nx2)
          end
      end
  end.

(** The event that assigns every variable its domain (BN.py:211). *)
Fixpoint cpt_events (e : nat -> list Z) (t : cpt) : nat -> list Z :=
  match t with CPT v dom _ cs => fold_left cpt_events cs (fun u => if (u =? v)%nat then dom else e u) end.
Definition full_event (b : network) : nat -> list Z :=
  fold_left cpt_events (n_children b) (fun u => if (u =? n_var b)%nat then n_dom b else []).

(** [as_probabilistic_circuit] (BN.py:201-247).  A network of one node is a leaf whose [forward_message_as_sum_unit] is not
    implemented (BD.py:16-40, BN.py:96-103, 216-217). *)
Definition as_probabilistic_circuit (b : network) : option (graph dist) :=
  match n_children b with
  | [] => None
  | _ =>
      match forward_pass (full_event b) b with
      | Some (msg, fp, fs) =>
          match node_circuit (FNode (n_var b) (n_dom b) [] msg fp fs) 0 with
          | Some (g, _, _) => Some g
          | None => None
          end
      | None => None
      end
  end.
