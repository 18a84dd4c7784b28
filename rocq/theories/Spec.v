(** * Spec: what a circuit means

    This file is the specification side.  It does not mention breadth first search, stored results or graph surgery.
    A circuit means the tree one gets by following its edges from the root. *)
From Coq Require Import List Arith Bool Lia Reals.
From Verif Require Import Num Graph.
Import ListNotations.

Inductive pc (D : Type) : Type :=
| PLeaf (d : D)
| PSum (l : list (num * pc D))
| PProd (l : list (pc D)).
Arguments PLeaf {D} d.
Arguments PSum {D} l.
Arguments PProd {D} l.

(** [unfolds g u t]: following the edges of [g] from unit [u] yields the tree [t].
    Sum units must have at least one child and all their edges must carry a log weight. *)
Inductive unfolds {D} (g : graph D) : id -> pc D -> Prop :=
| unf_leaf : forall u d, node_kind g u = Some (ULeaf d) -> unfolds g u (PLeaf d)
| unf_sum : forall u ts, node_kind g u = Some USum -> out_edges g u <> [] ->
    Forall2 (fun e wt => e_lw e = Some (fst wt) /\ unfolds g (e_dst e) (snd wt)) (out_edges g u) ts ->
    unfolds g u (PSum ts)
| unf_prod : forall u ts, node_kind g u = Some UProd ->
    Forall2 (fun e t => unfolds g (e_dst e) t) (out_edges g u) ts ->
    unfolds g u (PProd ts).

(** Mixture-of-products value over idealised floats: a leaf has its own value, a sum is the [exp(log_weight)]-weighted
    sum of its children, a product is the product of its children. *)
Fixpoint semN {D} (val : D -> num) (t : pc D) : num :=
  match t with
  | PLeaf d => val d
  | PSum l => nsum (map (fun wt => nmul (nexp (fst wt)) (semN val (snd wt))) l)
  | PProd l => nprod (map (semN val) l)
  end.

(** The same over the reals, for finite leaf values.  The weight of a log weight of minus infinity is 0. *)
Definition wexp (w : num) : R := match w with Fin x => exp x | _ => 0%R end.

Fixpoint semR {D} (val : D -> R) (t : pc D) : R :=
  match t with
  | PLeaf d => val d
  | PSum l => Rsum (map (fun wt => (wexp (fst wt) * semR val (snd wt))%R) l)
  | PProd l => Rprod (map (semR val) l)
  end.

(** Log weights that stand for a finite weight: a real number or minus infinity. *)
Definition lw_ok (w : num) : Prop := match w with Fin _ | NInf => True | _ => False end.
Definition lw_finite (w : num) : Prop := match w with Fin _ => True | _ => False end.

(** A predicate that has to hold for every weight list of every sum unit. *)
Fixpoint all_sums {D} (P : list num -> Prop) (t : pc D) : Prop :=
  match t with
  | PLeaf _ => True
  | PSum l => P (map fst l) /\ fold_right and True (map (fun wt => all_sums P (snd wt)) l)
  | PProd l => fold_right and True (map (all_sums P) l)
  end.

(** A predicate that has to hold for every leaf. *)
Fixpoint all_leaves {D} (P : D -> Prop) (t : pc D) : Prop :=
  match t with
  | PLeaf d => P d
  | PSum l => fold_right and True (map (fun wt => all_leaves P (snd wt)) l)
  | PProd l => fold_right and True (map (all_leaves P) l)
  end.

(** The weights of a sum unit form a convex combination. *)
Definition convex (ws : list num) : Prop := Forall lw_ok ws /\ Rsum (map wexp ws) = 1%R.

Definition normalised {D} (t : pc D) : Prop := all_sums convex t.

Section Vars.
Context {D : Type} (dvars : D -> list nat).

(** [mentions t v]: some leaf below speaks about variable [v]. *)
Fixpoint mentions (t : pc D) (v : nat) : Prop :=
  match t with
  | PLeaf d => In v (dvars d)
  | PSum l => fold_right or False (map (fun wt => mentions (snd wt) v) l)
  | PProd l => fold_right or False (map (fun t' => mentions t' v) l)
  end.

(** Smoothness: the children of a sum unit speak about the same variables. *)
Fixpoint smooth (t : pc D) : Prop :=
  match t with
  | PLeaf _ => True
  | PSum l => (forall v, mentions (PSum l) v -> fold_right and True (map (fun wt => mentions (snd wt) v) l)) /\
              fold_right and True (map (fun wt => smooth (snd wt)) l)
  | PProd l => fold_right and True (map smooth l)
  end.

(** Decomposability: the children of a product unit speak about disjoint sets of variables. *)
Fixpoint pairwise_disjoint (l : list (nat -> Prop)) : Prop :=
  match l with
  | [] => True
  | p :: l' => fold_right and True (map (fun q : nat -> Prop => forall v, ~ (p v /\ q v)) l') /\ pairwise_disjoint l'
  end.

Fixpoint decomposable (t : pc D) : Prop :=
  match t with
  | PLeaf _ => True
  | PSum l => fold_right and True (map (fun wt => decomposable (snd wt)) l)
  | PProd l => pairwise_disjoint (map (fun t' => mentions t') l) /\ fold_right and True (map decomposable l)
  end.
End Vars.

Fixpoint height {D} (t : pc D) : nat :=
  match t with
  | PLeaf _ => 1
  | PSum l => S (fold_right max 0 (map (fun wt => height (snd wt)) l))
  | PProd l => S (fold_right max 0 (map height l))
  end.

Fixpoint size {D} (t : pc D) : nat :=
  match t with
  | PLeaf _ => 1
  | PSum l => S (fold_right plus 0 (map (fun wt => size (snd wt)) l))
  | PProd l => S (fold_right plus 0 (map size l))
  end.
