(** * TruncSample: drawing from truncated Gaussian distributions

    Models G.py:280-361 (robert_rejection_sample, its two helpers, sample).  numpy's generator is a stream of numbers of [0, 1) that
    is consumed in order; [np.random.uniform(low, high, n)] takes the next [n] numbers [r] and returns low + (high - low) * r.
    [norm.rvs] (the call of [super().sample] for unbounded intervals) is not modelled.  Attributes of the fresh interval
    object are assigned; since nobody else sees it, it is a value here. *)
From Coq Require Import List Arith Bool Reals.
From Verif Require Import Num Interval Graph GaussInt GammaFn Dist.
Import ListNotations.
Local Open Scope R_scope.

(** [np.random.uniform] for one number. *)
Definition uniform_between (low high r : R) : R := low + (high - low) * r.

(** [limiting_function] at a sample (G.py:338-349); the last branch raises ValueError. *)
Definition limiting_function (i : sint) (low high x : R) : option R :=
  if in_sint i 0 then Some (exp (x ^ 2 / -2))
  else if Rleb high 0 then Some (exp ((high ^ 2 - x ^ 2) / 2))
  else if Rleb 0 low then Some (exp ((low ^ 2 - x ^ 2) / 2))
  else None.

(** One row of robert_rejection_sample_from_standard_normal_with_double_truncation_helper (G.py:327-356): the proposal if it
    is accepted. *)
Definition proposal (i : sint) (low high r v : R) : option (option R) :=
  let x := uniform_between low high r in
  match limiting_function i low high x with
  | None => None
  | Some f => Some (if Rleb (uniform_between 0 1 v) f then Some x else None)
  end.

(** The helper for [amount] rows at position [p] of the stream: first all proposals, then all acceptance probabilities. *)
Definition helper (rnd : nat -> R) (i : sint) (low high : R) (amount p : nat) : option (list R) :=
  match mapM (fun j => proposal i low high (rnd (p + j)%nat) (rnd (p + amount + j)%nat)) (seq 0 amount) with
  | None => None
  | Some l => Some (flat_map (fun o => match o with Some x => [x] | None => [] end) l)
  end.

(** robert_rejection_sample_from_standard_normal_with_double_truncation (G.py:310-325); [fuel] bounds the number of rounds.
    Returns the position in the stream as well. *)
Fixpoint rejection_loop (fuel : nat) (rnd : nat -> R) (i : sint) (low high : R) (amount p : nat) (acc : list R) : option (list R * nat) :=
  if Nat.ltb (length acc) amount then
    match fuel with
    | 0%nat => None
    | S f =>
        let n := (amount - length acc)%nat in
        match helper rnd i low high n p with
        | None => None
        | Some l => rejection_loop f rnd i low high amount (p + 2 * n)%nat (acc ++ l)
        end
    end
  else Some (acc, p).

(** The interval of the standardised distribution, with enforced bounds (G.py:287-299). *)
Definition enforced (i : sint) (mu sigma : R) : sint :=
  let j := mkSint (zscore mu sigma (lo i)) (zscore mu sigma (hi i)) (lc i) (rc i) in
  let j1 := match hi j with PInf => mkSint (lo j) (nadd (lo j) (Fin 10)) (lc j) (rc j) | _ => j end in
  match lo j1 with NInf => mkSint (nsub (hi j1) (Fin 10)) (hi j1) (lc j1) (rc j1) | _ => j1 end.

(** robert_rejection_sample (G.py:280-307).  Bounds that are not finite after being enforced (nan) are not represented. *)
Definition robert_rejection_sample (fuel : nat) (rnd : nat -> R) (i : sint) (mu sigma : R) (amount p : nat) : option (list R * nat) :=
  let j := enforced i mu sigma in
  match lo j, hi j with
  | Fin low, Fin high =>
      match rejection_loop fuel rnd j low high amount p [] with
      | None => None
      | Some (l, p') => Some (map (fun x => x * sigma + mu) l, p')
      end
  | _, _ => None
  end.

(** [sample] (G.py:358-361) for an interval with a finite bound. *)
Definition tg_sample (fuel : nat) (rnd : nat -> R) (i : sint) (mu sigma : R) (amount p : nat) : option (list R * nat) :=
  match lo i, hi i with
  | NInf, PInf => None
  | _, _ => robert_rejection_sample fuel rnd i mu sigma amount p
  end.
