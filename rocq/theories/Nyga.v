(** * Nyga: learning deterministic mixtures of uniform distributions

    Source: /repo/src/probabilistic_model/learning/nyga_distribution.py (NY.py).

    Simplifications: data are real numbers (no NaN or infinities); a distribution is fitted once; parameters are passed as
    arguments instead of being read from the object. *)
From Coq Require Import List Arith Bool Lia ZArith Reals.
From Verif Require Import Num Graph Spec Circuit Interval Dist Simplify Copy Heap.
Import ListNotations.
Local Open Scope R_scope.

(** [np.unique(data, return_counts=True)] (NY.py:359): the distinct values in increasing order with their counts. *)
Fixpoint uniq_insert (x : R) (l : list (R * nat)) : list (R * nat) :=
  match l with
  | [] => [(x, 1%nat)]
  | (y, c) :: l' => if Rltb x y then (x, 1%nat) :: l else if Reqb x y then (y, S c) :: l' else (y, c) :: uniq_insert x l'
  end.
Definition np_unique (data : list R) : list (R * nat) := fold_right uniq_insert [] data.

(** [np.insert(np.cumsum(w), 0, 0)] (NY.py:375-379): entry i is the sum of the first i entries. *)
Definition cumulative (w : list R) (i : nat) : R := Rsum (firstn i w).
Definition cumulative_num (w : list num) (i : nat) : num := nsum (firstn i w).

(** [a > b] of floats; comparisons with NaN are false. *)
Definition ngtb (a b : num) : bool :=
  match a, b with
  | Fin x, Fin y => Rltb y x
  | Fin _, NInf | PInf, NInf | PInf, Fin _ => true
  | _, _ => false
  end.

Section Induction.
Variable data : list R.        (* the sorted distinct values *)
Variable weights : list R.
Variable k : nat.              (* min_samples_per_quantile *)
Variable improvement : R.      (* min_likelihood_improvement *)

Definition at_index (i : nat) : R := nth i data 0.

(** [left_connecting_point_from_index] (NY.py:106-116) and [right_connecting_point_from_index] (NY.py:124-134). *)
Definition left_connecting_point (i : nat) : R := if (0 <? i)%nat then (at_index (i - 1) + at_index i) / 2 else at_index i.
Definition right_connecting_point (i : nat) : R := if (i <? length data)%nat then (at_index i + at_index (i - 1)) / 2 else at_index (i - 1).

(** [create_uniform_distribution] (NY.py:136-157): the interval from the datapoint at [b] to the one at [e]. *)
Definition leaf_interval (b e : nat) : sint :=
  if (e =? length data)%nat then iclosed (left_connecting_point b) (right_connecting_point e)
  else iclosed_open (left_connecting_point b) (right_connecting_point e).

(** [sum_weights_from_indices] (NY.py:159-163), [sum_log_weights_from_indices] (NY.py:171-175). *)
Definition sum_weights (b e : nat) : R := cumulative weights e - cumulative weights b.
Definition sum_log_weights (b e : nat) : num :=
  let l := map (fun w => nlog (Fin w)) weights in nsub (cumulative_num l e) (cumulative_num l b).

(** [log_likelihood_without_split] (NY.py:217-224). *)
Definition log_likelihood_without_split (b e : nat) : num :=
  let log_density := nopp (nlog (Fin (right_connecting_point e - left_connecting_point b))) in
  nadd (sum_log_weights b e) (nmul (Fin (INR (e - b))) log_density).

(** [log_likelihood_of_split_side] (NY.py:226-266). *)
Definition log_likelihood_of_split_side (b e s : nat) (cp : R) : num :=
  let split_value := (at_index (s - 1) + at_index s) / 2 in
  let density := split_value - cp in
  let is_left := Rltb 0 density in
  let log_density := nlog (Fin (Rabs density)) in
  let log_weight_sum_of_split := if is_left then nlog (Fin (sum_weights b s)) else nlog (Fin (sum_weights s e)) in
  let log_weight_sum := nlog (Fin (sum_weights b e)) in
  let number_of_samples := if is_left then (s - b)%nat else (e - s)%nat in
  let sum_of_log_weights := if is_left then sum_log_weights b s else sum_log_weights s e in
  nadd (nmul (Fin (INR number_of_samples)) (nsub (nsub log_weight_sum_of_split log_weight_sum) log_density)) sum_of_log_weights.

Definition log_likelihood_of_split (b e s : nat) : num :=
  nadd (log_likelihood_of_split_side b e s (left_connecting_point b)) (log_likelihood_of_split_side b e s (right_connecting_point e)).

(** The induction, for any way [whole] and [split] to compute the likelihood without and with a split. *)
Variable whole : nat -> nat -> num.
Variable split : nat -> nat -> nat -> num.

(** [compute_best_split] (NY.py:183-215).  With [1 <= k] the range is empty when [e < k], in Python and here. *)
Definition better_split (b e : nat) (acc : num * option nat) (s : nat) : num * option nat :=
  if ngtb (split b e s) (fst acc) then (split b e s, Some s) else acc.
Definition compute_best_split (b e : nat) : num * option nat :=
  fold_left (better_split b e) (seq (b + k) (e - k + 1 - (b + k))) (NInf, None).

(** [improvement_is_good_enough] (NY.py:286-293). *)
Definition improvement_is_good_enough (b e : nat) (ll : num) : bool := ngtb (nexp (nsub ll (whole b e))) (Fin improvement).

(** [induce] (NY.py:295-323): the new steps, or the leaf to mount with its weight.  A step built with the index None raises a
    TypeError when its turn comes; the model raises at once. *)
Definition induce (b e : nat) : option (list (nat * nat) + R * sint) :=
  let '(ll, best) := compute_best_split b e in
  if improvement_is_good_enough b e ll then
    match best with
    | Some s => Some (inl [(b, s); (s, e)])
    | None => None
    end
  else Some (inr (sum_weights b e / cumulative weights (length weights), leaf_interval b e)).

(** The loop of [fit] (NY.py:386-392).  Running out of fuel gives None. *)
Fixpoint induction_loop (v : nat) (fuel : nat) (queue : list (nat * nat)) (g : graph dist) (nx : id) : option (graph dist) :=
  match queue with
  | [] => Some g
  | (b, e) :: queue' =>
      match fuel with
      | O => None
      | S fuel' =>
          match induce b e with
          | None => None
          | Some (inl steps) => induction_loop v fuel' (queue' ++ steps) g nx
          | Some (inr (w, i)) => induction_loop v fuel' queue' (add_edge (add_node g nx (ULeaf (DUnif v i))) 0%nat nx (Some (nlog (Fin w)))) (S nx)
          end
      end
  end.
End Induction.

(** [NygaDistribution.fit] (NY.py:348-396) with the likelihoods as parameters. *)
Definition fit_with (whole : list R -> list R -> nat -> nat -> num) (split : list R -> list R -> nat -> nat -> nat -> num)
    (v k : nat) (improvement : R) (fuel : nat) (data : list R) (weights : option (list R)) : option (graph dist) :=
  let xs := map fst (np_unique data) in
  match xs with
  | [x] => Some (mkGraph [(0%nat, ULeaf (DDirac v x PInf))] [])
  | _ =>
      let ws := match weights with None => map (fun xc => INR (snd xc)) (np_unique data) | Some ws => ws end in
      match induction_loop xs ws k improvement (whole xs ws) (split xs ws) v fuel [(0, length xs)]%nat (mkGraph [(0%nat, USum)] []) 1%nat with
      | None => None
      | Some g => normalize g
      end
  end.

Definition fit := fit_with log_likelihood_without_split log_likelihood_of_split.

(** ** [from_uniform_mixture] (NY.py:414-447) *)
(** The bounds of the leaves' intervals (NY.py:429-432); only bounded uniform distributions. *)
Definition leaf_points (d : dist) : option (list R) :=
  match d with
  | DUnif _ i => match lo i, hi i with Fin a, Fin b => Some [a; b] | _, _ => None end
  | _ => None
  end.

(** [mixture.leaves]. *)
Definition leaves_of (g : graph dist) : list dist := flat_map (fun p => match snd p with ULeaf d => [d] | _ => [] end) (g_nodes g).

(** [zip(points[:-1], points[1:])] with the last interval closed (NY.py:436-440). *)
Fixpoint uniform_cells (l : list R) : list sint :=
  match l with
  | a :: ((b :: l') as t) => match l' with [] => [iclosed a b] | _ => iclosed_open a b :: uniform_cells t end
  | _ => []
  end.

(** One turn of the loop (NY.py:441-445). *)
Definition mount_cell (mixture : graph dist) (v : nat) (acc : graph dist * id) (i : sint) : option (graph dist * id) :=
  let '(g, nx) := acc in
  match probability_of_simple_event (dist_prob (fun _ => EInt [i])) mixture empty_store with
  | None => None
  | Some (p, _) => Some (add_edge (add_node g nx (ULeaf (DUnif v i))) 0%nat nx (Some (nlog p)), S nx)
  end.

Definition from_uniform_mixture (mixture : graph dist) : option (graph dist) :=
  match circuit_variables dist_vars mixture with
  | Some [v] =>
      match mapM leaf_points (leaves_of mixture) with
      | None => None
      | Some ps => option_map fst (foldM (mount_cell mixture v) (uniform_cells (map fst (np_unique (concat ps)))) (mkGraph [(0%nat, USum)] [], 1%nat))
      end
  | _ => None
  end.
