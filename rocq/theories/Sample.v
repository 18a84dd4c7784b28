(** * Sample: drawing samples from a circuit

    Models PC.py:271-279 (LeafUnit.sample), 422-441 (SumUnit.sample), 724-727 (ProductUnit.sample) and 947-964
    (ProbabilisticCircuit.sample).  Randomness is an argument: [draw u k a] is the outcome of the [k]-th request for [a] rows at
    the sum unit [u]: the counts drawn by np.random.multinomial and the list of child indices after random.shuffle. *)
From Coq Require Import List Arith Bool Lia Permutation.
From Verif Require Import Num Graph Circuit Copy.
Import ListNotations.

(** A request: first row and number of rows. *)
Definition request : Type := nat * nat.
Definition draws : Type := id -> nat -> nat -> list nat * list nat.

(** The requests every unit has collected ([result_of_current_query] during sampling). *)
Definition requests : Type := id -> list request.
Definition push (st : requests) (c : id) (q : request) : requests := fun x => if x =? c then st x ++ [q] else st x.

(** The rows that a leaf writes: [samples[start:start+amount, column_indices]], with the columns of its variables. *)
Record block : Type := mkBlock { b_leaf : id; b_start : nat; b_amount : nat; b_columns : list nat }.

Section Sample.
Context {D : Type}.
Variable dvars : D -> list nat.
Implicit Types g : graph D.

(** The loop over the shuffled indices (PC.py:436-441): consecutive row ranges. *)
Fixpoint consecutive (start : nat) (l : list (id * nat)) : list (id * request) :=
  match l with
  | [] => []
  | (c, n) :: l' => (c, (start, n)) :: consecutive (start + n) l'
  end.

(** One request at a sum unit with children [cs]; None is IndexError. *)
Definition sum_request (cs : list id) (dr : list nat * list nat) (q : request) : option (list (id * request)) :=
  match mapM (fun i => match nth_error cs i, nth_error (fst dr) i with
                       | Some c, Some n => Some (c, n) | _, _ => None end) (snd dr) with
  | None => None
  | Some l => Some (consecutive (fst q) l)
  end.

Definition push_all (st : requests) (l : list (id * request)) : requests :=
  fold_left (fun st cq => push st (fst cq) (snd cq)) l st.

(** The requests of a unit, numbered. *)
Definition numbered {A} (l : list A) : list (nat * A) := combine (seq 0 (length l)) l.

(** [SumUnit.sample]: for every request, in order. *)
Definition sum_sample (draw : draws) g (u : id) (st : requests) : option requests :=
  match lws g u with
  | None => None
  | Some _ =>
    foldM (fun st kq => match sum_request (subcircuits g u) (draw u (fst kq) (snd (snd kq))) (snd kq) with
                        | None => None
                        | Some l => Some (push_all st l)
                        end) (numbered (st u)) st
  end.

(** [ProductUnit.sample]. *)
Definition prod_sample g (u : id) (st : requests) : requests :=
  fold_left (fun st q => fold_left (fun st c => push st c q) (subcircuits g u) st) (st u) st.

(** [LeafUnit.sample]: one block per request. *)
Definition leaf_sample (vars : list nat) (d : D) (u : id) (st : requests) : option (list block) :=
  match mapM (var_index vars) (sset_of (dvars d)) with
  | None => None
  | Some cols => Some (map (fun q => mkBlock u (fst q) (snd q) cols) (st u))
  end.

Definition unit_sample (draw : draws) (vars : list nat) g (x : requests * list block) (u : id) : option (requests * list block) :=
  match node_kind g u with
  | None => None
  | Some (ULeaf d) => match leaf_sample vars d u (fst x) with
                      | None => None
                      | Some bs => Some (fst x, snd x ++ bs)
                      end
  | Some USum => match sum_sample draw g u (fst x) with None => None | Some st => Some (st, snd x) end
  | Some UProd => Some (prod_sample g u (fst x), snd x)
  end.

(** [ProbabilisticCircuit.sample] (PC.py:947-964): the blocks written into the array, in order.  The array has [amount] rows
    and one column per variable; a cell that no block covers stays nan. *)
Definition sample_blocks (draw : draws) g (amount : nat) : option (list block) :=
  match circuit_variables dvars g, root g, top_down g with
  | Some vars, Some r, Some order =>
      match foldM (unit_sample draw vars g) order (push (fun _ => []) r (0, amount), []) with
      | None => None
      | Some (_, bs) => Some bs
      end
  | _, _, _ => None
  end.

(** Which outcomes numpy and random can produce: one count per child, adding up to the amount, none for a child of
    weight zero; and a permutation of the indices. *)
Definition possible_draw g (u : id) (a : nat) (dr : list nat * list nat) : Prop :=
  length (fst dr) = length (out_edges g u) /\ list_sum (fst dr) = a /\
  (forall i e, nth_error (out_edges g u) i = Some e -> e_lw e = Some NInf -> nth_error (fst dr) i = Some 0) /\
  Permutation (snd dr) (seq 0 (length (out_edges g u))).
(** Rows go only to children that [P] allows. *)
Definition respects (P : id -> id -> Prop) g (draw : draws) : Prop :=
  forall u k a i e m, node_kind g u = Some USum -> nth_error (out_edges g u) i = Some e ->
    nth_error (fst (draw u k a)) i = Some m -> 0 < m -> P u (e_dst e).
Definition possible g (draw : draws) : Prop :=
  forall u k a, node_kind g u = Some USum -> possible_draw g u a (draw u k a).
End Sample.

(** The rows of a block. *)
Definition covers_row (b : block) (j : nat) : bool := (b_start b <=? j) && (j <? b_start b + b_amount b).
Definition covers_cell (b : block) (j c : nat) : bool := covers_row b j && existsb (Nat.eqb c) (b_columns b).
