(** * JaxFromNxSpec: what a layered circuit made from a networkx circuit should mean

    The specification side of JaxFromNx.v, in terms of the trees of Spec.v. *)
From Coq Require Import List Arith Bool Permutation Reals ZArith.
From Verif Require Import Num Graph Spec Circuit Interval Dist DistFacts.
Import ListNotations.
Local Open Scope nat_scope.

(** Trees that differ only in the order of the children of their units. *)
Inductive rearranged {D} : pc D -> pc D -> Prop :=
| re_leaf : forall d, rearranged (PLeaf d) (PLeaf d)
| re_sum : forall l m l', Permutation l m -> Forall2 (fun a b => fst a = fst b /\ rearranged (snd a) (snd b)) m l' -> rearranged (PSum l) (PSum l')
| re_prod : forall l m l', Permutation l m -> Forall2 rearranged m l' -> rearranged (PProd l) (PProd l').

(** The column of a variable: the number of smaller variables. *)
Definition column (vars : list nat) (v : nat) : nat := length (filter (fun w => w <? v) vars).

Section Leaves.
Variable domain : nat -> nat.
Variables before after : R -> R.
Variable vars : list nat.

(** What becomes of a leaf: the variable is the number of its column.  The scale of a Gaussian grows by 0.01.  An interval is
    open; closed bounds move outwards.  A symbolic distribution has an entry for every element of the domain of its variable,
    and the entries sum to one.  A Dirac distribution stays as it is. *)
Definition layer_leaf (d : dist) : dist :=
  match d with
  | DGauss v m s => DGauss (column vars v) m (s + 1 / 100)
  | DUnif v i =>
      DUnif (column vars v)
        (match lo i, hi i with Fin a, Fin b => iopen (if lc i then before a else a) (if rc i then after b else b) | _, _ => i end)
  | DDirac v l c => DDirac (column vars v) l c
  | DSym v p => DSym (column vars v) (map (fun k => (Z.of_nat k, dget p (Z.of_nat k) / Rsum (vals p))%R) (seq 0 (domain v)))
  | _ => d
  end.

(** Leaves with a layer: no truncated Gaussians and no integers; the elements of symbolic variables are 0, 1, ... *)
Definition leaf_fits (d : dist) : Prop :=
  match d with
  | DGauss _ _ s => (0 < s)%R
  | DSym v p => dict_ok p /\ Forall (fun k => (0 <= k < Z.of_nat (domain v))%Z) (keys p)
  | DUnif _ _ | DDirac _ _ _ => True
  | DTGauss _ _ _ _ | DInt _ _ => False
  end.

(** The tree with normalised weights over these leaves. *)
Fixpoint layer_tree (t : pc dist) : pc dist :=
  match t with
  | PLeaf d => PLeaf (layer_leaf d)
  | PSum l =>
      PSum (map (fun wt => (nlog (Fin (wexp (fst wt) / Rsum (map (fun wt => wexp (fst wt)) l))), layer_tree (snd wt))) l)
  | PProd l => PProd (map layer_tree l)
  end.
End Leaves.

(** [u] is [n] edges away from [r]. *)
Inductive away {D} (g : graph D) (r : id) : id -> nat -> Prop :=
| away_root : away g r r 0
| away_step : forall u n e, away g r u n -> In e (g_edges g) -> e_src e = u -> away g r (e_dst e) (S n).

(** Every product unit speaks about all variables of the units one step further from the root. *)
Definition wide (g : graph dist) (r : id) : Prop :=
  forall u v n t t', node_kind g u = Some UProd -> away g r u n -> away g r v (S n) -> unfolds g u t -> unfolds g v t' ->
  forall x, mentions dist_vars t' x -> mentions dist_vars t x.

(** ** Circuits that can be converted *)

(** Trees that begin with the same kind of unit: sums, products, or leaves of the same family. *)
Definition same_family (d d' : dist) : Prop :=
  match d, d' with
  | DUnif _ _, DUnif _ _ | DDirac _ _ _, DDirac _ _ _ | DGauss _ _ _, DGauss _ _ _ | DTGauss _ _ _ _, DTGauss _ _ _ _ | DSym _ _, DSym _ _ | DInt _ _, DInt _ _ => True
  | _, _ => False
  end.
Definition same_kind (t t' : pc dist) : Prop :=
  match t, t' with PLeaf d, PLeaf d' => same_family d d' | PSum _, PSum _ | PProd _, PProd _ => True | _, _ => False end.
Definition both_leaves (t t' : pc dist) : Prop := (exists d, t = PLeaf d) <-> exists d, t' = PLeaf d.

(** [n] is the number of variables of the tree. *)
Definition about (t : pc dist) (n : nat) : Prop := exists s, NoDup s /\ length s = n /\ forall x, In x s <-> mentions dist_vars t x.

(** At every depth, either all units are leaves or none is; units over the same variables are of the same kind.  A sum unit has
    as many variables as every unit one step further, or one of the two has a single variable.  Every unit has a variable. *)
Record orderly (g : graph dist) (r : id) : Prop := {
  or_leaves : forall u v n t t', away g r u n -> away g r v n -> unfolds g u t -> unfolds g v t' -> both_leaves t t';
  or_kinds : forall u v n t t', away g r u n -> away g r v n -> unfolds g u t -> unfolds g v t' ->
    (forall x, mentions dist_vars t x <-> mentions dist_vars t' x) -> same_kind t t';
  or_sizes : forall u v n t t', away g r u n -> away g r v (S n) -> unfolds g u t -> unfolds g v t' -> (exists l, t = PSum l) ->
    exists a b, about t a /\ about t' b /\ (a = b \/ a = 1 \/ b = 1);
  or_vars : forall u n t, away g r u n -> unfolds g u t -> exists x, mentions dist_vars t x
}.
