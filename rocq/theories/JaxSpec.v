(** * JaxSpec: what a layered circuit means

    The specification side of JaxLayer.v: every node of a layer stands for a circuit (a tree in the sense of Spec.v), obtained
    by following the edges downwards.  Nothing here mentions vectors of log-likelihoods, gathering or scattering. *)
From Coq Require Import List Arith Bool Lia Reals ZArith.
From Verif Require Import Num Graph Spec Circuit Interval Dist JaxLayer.
Import ListNotations.
Local Open Scope nat_scope.

(** ** Input layers *)

(** The probabilities that unnormalised log probabilities stand for. *)
Definition softmax (row : list num) : list R := map (fun p => (wexp p / Rsum (map wexp row))%R) row.

(** The distribution of node [r] of an input layer over variable [v]. *)
Definition input_dist (v : nat) (i : input) (r : nat) : dist :=
  match i with
  | IGauss loc ls ms => DGauss v (nth r loc 0%R) (exp (nth r ls 0%R) + nth r ms 0%R)
  | IDiscrete ps => DSym v (combine (map Z.of_nat (seq 0 (length (nth r ps [])))) (softmax (nth r ps [])))
  | IUniform is => DUnif v (iopen (fst (nth r is (0, 0)%R)) (snd (nth r is (0, 0)%R)))
  | IDirac loc cap => DDirac v (nth r loc 0%R) (nth r cap NaN)
  end.

(** ** Sum layers *)

(** The edges of node [r] to one child layer: numbers of child nodes and log weights. *)
Definition sparse_edges (r : nat) (w : sparse num) : list (nat * num) :=
  map (fun e => (snd (fst e), snd e)) (filter (fun e => fst (fst e) =? r) (s_entries w)).
Definition dense_edges (r : nat) (w : dense) : list (nat * num) := map (fun c => (c, d_at w r c)) (seq 0 (d_cols w)).

(** The sum of the weights of all edges of a node; [parts] has one list of edges per child layer. *)
Definition total_weight (parts : list (list (nat * num))) : R := Rsum (map (fun e => wexp (snd e)) (concat parts)).

(** Log weights and values of all child nodes of a node, where [vals] gives the values of the nodes of each child layer, and
    the value of the mixture: sum of weight times value over the sum of the weights. *)
Definition weighted {A} (parts : list (list (nat * num))) (vals : list (nat -> A)) : list (num * A) :=
  concat (map (fun pt => map (fun e => (snd e, snd pt (fst e))) (fst pt)) (combine parts vals)).
Definition mixture (parts : list (list (nat * num))) (vals : list (nat -> num)) : num :=
  ndiv (nsum (map (fun wv => nmul (Fin (wexp (fst wv))) (snd wv)) (weighted parts vals))) (Fin (total_weight parts)).

(** The mixture of the child nodes with normalised weights. *)
Definition sum_tree (parts : list (list (nat * num))) (children : list (nat -> pc dist)) : pc dist :=
  PSum (map (fun wt => (nlog (Fin (wexp (fst wt) / total_weight parts)), snd wt)) (weighted parts children)).

(** ** Product layers *)

(** The children of node [r]: child layers are numbered by the rows of the edges. *)
Definition prod_edges (edges : sparse nat) (r : nat) (k : nat) : list nat :=
  map snd (filter (fun e => (fst (fst e) =? k) && (snd (fst e) =? r)) (s_entries edges)).
Definition prod_tree (edges : sparse nat) (r : nat) (children : list (nat -> pc dist)) : pc dist :=
  PProd (concat (map (fun kt => map (snd kt) (prod_edges edges r (fst kt))) (combine (seq 0 (length children)) children))).

(** ** Layers *)
Fixpoint tree (L : layer) (r : nat) {struct L} : pc dist :=
  match L with
  | LInput v i => PLeaf (input_dist v i r)
  | LSparse ws cs => sum_tree (map (sparse_edges r) ws) (map (fun c r' => tree c r') cs)
  | LDense ws cs => sum_tree (map (dense_edges r) ws) (map (fun c r' => tree c r') cs)
  | LProd edges cs => prod_tree edges r (map (fun c r' => tree c r') cs)
  end.

(** ** Layers whose arrays fit together *)
Definition input_sound (i : input) : Prop :=
  match i with
  | IGauss loc ls ms => length ls = length loc /\ length ms = length loc
  | IDiscrete ps => forall row, In row ps -> Forall lw_ok row /\ (0 < Rsum (map wexp row))%R
  | IUniform _ => True
  | IDirac loc cap => length cap = length loc
  end.

Definition sum_sound (n : nat) (rows : list nat) (parts : nat -> list (list (nat * num))) (cs : list layer) : Prop :=
  Forall (fun m => m = n) rows /\
  (forall r, r < n -> (0 < total_weight (parts r))%R) /\
  (forall r, r < n -> Forall2 (fun part c => Forall (fun e => lw_ok (snd e) /\ fst e < number_of_nodes c) part) (parts r) cs).

Fixpoint sound (L : layer) : Prop :=
  match L with
  | LInput _ i => input_sound i
  | LSparse ws cs =>
      ws <> [] /\ Forall (fun w => Forall (fun e => fst (fst e) < s_rows w) (s_entries w)) ws /\ s_rows (hd (mkSparse 0 0 []) ws) <> 0 /\
      sum_sound (number_of_nodes L) (map s_rows ws) (fun r => map (sparse_edges r) ws) cs /\ fold_right and True (map sound cs)
  | LDense ws cs =>
      ws <> [] /\ Forall2 (fun w c => d_cols w = number_of_nodes c) ws cs /\
      sum_sound (number_of_nodes L) (map d_rows ws) (fun r => map (dense_edges r) ws) cs /\ fold_right and True (map sound cs)
  | LProd edges cs =>
      s_rows edges = length cs /\
      (forall e c, In e (s_entries edges) -> nth_error cs (fst (fst e)) = Some c -> snd e < number_of_nodes c) /\ fold_right and True (map sound cs)
  end.

(** The points a layer is made for: a discrete variable takes the number of one of its states. *)
Fixpoint fits (env : nat -> R) (L : layer) : Prop :=
  match L with
  | LInput v (IDiscrete ps) => exists k, env v = INR k /\ forall row, In row ps -> k < length row
  | LInput _ _ => True
  | LSparse _ cs | LDense _ cs | LProd _ cs => fold_right and True (map (fits env) cs)
  end.

(** The density of node [r] at a point. *)
Definition density (env : nat -> R) (t : pc dist) : num := semN (fun d => nexp (ll1 d (env (dvar d)))) t.
