(** * SparseSample: drawing counts from the rows of a sparse matrix of probabilities

    Models sample_from_sparse_probabilities_csc (/repo/src/probabilistic_model/probabilistic_circuit/jax/utils.py:146-158, U.py)
    with the parts of scipy's csr_array and of numpy's legacy multinomial generator that it reaches.

    Simplifications: probabilities are real numbers; a random function is the finite list of its outcomes with their
    probabilities, where the outcome None stands for an exception; draws are independent.  The final conversion tocsc changes the
    order of the storage but not the matrix and is left out. *)
From Coq Require Import List Arith Bool Reals.
From Verif Require Import Num Interval.
Import ListNotations.
Local Open Scope R_scope.

(** ** Random outcomes *)

Definition rand (A : Type) : Type := list (option A * R).
Definition ret {A} (x : option A) : rand A := [(x, 1)].
Definition bind {A B} (d : rand A) (f : A -> rand B) : rand B :=
  flat_map (fun xw => match fst xw with
                      | Some x => map (fun yv => (fst yv, snd xw * snd yv)) (f x)
                      | None => [(None, snd xw)]
                      end) d.

(** ** Sparse matrices *)

Record csr (A : Type) := mkCsr { s_rows : nat; s_cols : nat; s_data : list A; s_indices : list nat; s_indptr : list nat }.
Arguments mkCsr {A}. Arguments s_rows {A}. Arguments s_cols {A}. Arguments s_data {A}. Arguments s_indices {A}. Arguments s_indptr {A}.

Definition slice {A} (l : list A) (a b : nat) : list A := firstn (b - a) (skipn a l).

(** [row.data] for the rows of a csr_array in the order of iteration: scipy walks over [indptr[1:]]. *)
Fixpoint rows_from {A} (i0 : nat) (ptrs : list nat) (data : list A) : list (list A) :=
  match ptrs with
  | [] => []
  | i1 :: ptrs' => slice data i0 i1 :: rows_from i1 ptrs' data
  end.
Definition row_datas {A} (m : csr A) : list (list A) := rows_from 0 (tl (s_indptr m)) (s_data m).

(** [csr_array((data, indices, indptr), shape=shape)] with scipy's check_format (without full check) and prune. *)
Definition csr_array {A} (data : list A) (indices indptr : list nat) (rows cols : nat) : option (csr A) :=
  if ((length indptr =? S rows) && (hd 1 indptr =? 0) && (length indices =? length data) && (last indptr 0 <=? length indices))%nat
  then Some (mkCsr rows cols (firstn (last indptr 0%nat) data) (firstn (last indptr 0%nat) indices) indptr)
  else None.

(** ** numpy's multinomial generator *)

(** [binomial(n, p)]. *)
Definition binomial (n : nat) (p : R) : rand nat :=
  map (fun k => (Some k, C n k * p ^ k * (1 - p) ^ (n - k))) (seq 0 (S n)).

(** The loop of RandomState.multinomial over the categories: [dn] draws are left, [rest] is one minus the probabilities before.
    All that is left goes to the last category, whose probability is not looked at. *)
Fixpoint multinomial_loop (dn : nat) (rest : R) (pvals : list R) : rand (list nat) :=
  match pvals with
  | [] => ret (Some [])
  | [_] => ret (Some [dn])
  | p :: pvals' =>
      bind (binomial dn (p / rest)) (fun k =>
        if (dn - k =? 0)%nat then ret (Some (k :: repeat 0%nat (length pvals')))
        else bind (multinomial_loop (dn - k) (rest - p) pvals') (fun c => ret (Some (k :: c))))
  end.

(** [np.random.multinomial(n, pvals)] with its checks. *)
Definition np_multinomial (n : nat) (pvals : list R) : rand (list nat) :=
  if forallb (fun p => Rleb 0 p && Rleb p 1) pvals && Rleb (Rsum (removelast pvals)) (1 + / 10 ^ 12)
  then multinomial_loop n 1 pvals
  else ret None.

(** ** The function *)

(** The list comprehension over [zip(amount, probabilities)]: the shorter one ends it (U.py:155). *)
Fixpoint draws (amount : list nat) (rows : list (list R)) : rand (list (list nat)) :=
  match amount, rows with
  | a :: amount', r :: rows' => bind (np_multinomial a r) (fun c => bind (draws amount' rows') (fun cs => ret (Some (c :: cs))))
  | _, _ => ret (Some [])
  end.

(** [np.concatenate] raises for an empty list. *)
Definition np_concatenate {A} (ls : list (list A)) : option (list A) := match ls with [] => None | _ => Some (concat ls) end.

(** U.py:146-158. *)
Definition sample_sparse (m : csr R) (amount : list nat) : rand (csr nat) :=
  bind (draws amount (row_datas m)) (fun cs =>
    ret (match np_concatenate cs with
         | None => None
         | Some all_samples => csr_array all_samples (s_indices m) (s_indptr m) (s_rows m) (s_cols m)
         end)).
