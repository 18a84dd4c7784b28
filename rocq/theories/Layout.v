(** * Layout: circuits that the code builds from new units

    Several functions of /repo build a circuit top down by creating a new unit for every node of a tree and attaching it
    with add_subcircuit (PC.py:90-113, 389-397, 641-645), e.g. multinomial.py:178-207.  Such code is modelled by the tree of
    units it creates; [layout] gives every unit its own object and lists units and edges.  Simplification: units and edges
    are listed in depth-first order; networkx lists them in the order of the calls.  No query depends on the order in
    which units of different parents are listed. *)
From Coq Require Import List Arith Bool Lia.
From Verif Require Import Num Graph GraphFacts Spec SpecFacts Circuit EvalFacts.
Import ListNotations.
Local Open Scope nat_scope.

Section Layout.
Context {D : Type}.

(** Lays out the children one after the other: an edge to the child, then the child's own nodes and edges. *)
Definition lay_children {A} (lay : A -> id -> list (id * ukind D) * list edge * id) (w : A -> option num) (p : id)
  : list A -> id -> list (id * ukind D) * list edge * id :=
  fix go l n :=
    match l with
    | [] => ([], [], n)
    | a :: l' =>
      let '(ns, es, n1) := lay a n in
      let '(ns', es', n2) := go l' n1 in
      (ns ++ ns', mkEdge p n (w a) :: es ++ es', n2)
    end.

Fixpoint lay (t : pc D) (n : id) : list (id * ukind D) * list edge * id :=
  match t with
  | PLeaf d => ([(n, ULeaf d)], [], S n)
  | PSum l => let '(ns, es, m) := lay_children (fun wt => lay (snd wt)) (fun wt => Some (fst wt)) n l (S n) in
              ((n, USum) :: ns, es, m)
  | PProd l => let '(ns, es, m) := lay_children lay (fun _ => None) n l (S n) in
               ((n, UProd) :: ns, es, m)
  end.

Definition layout (t : pc D) : graph D := let '(ns, es, _) := lay t 0 in mkGraph ns es.
End Layout.
