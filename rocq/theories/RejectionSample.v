(** * RejectionSample: rejection sampling from truncated Gaussian distributions

    Models TruncatedGaussianDistribution.rejection_sample
    (/repo/src/probabilistic_model/distributions/gaussian.py:184-197, G.py).  scipy's [norm.rvs(loc, scale, size=(n, 1))] (G.py:44-45,
    reached as [super().sample]) takes the next [n] numbers [z] of numpy's stream of standard normal numbers and returns
    loc + scale * z.  [fuel] bounds the depth of the recursion; None also stands for Python's RecursionError. *)
From Coq Require Import List Arith Bool Reals.
From Verif Require Import Num Interval GaussInt Dist Heap.
Import ListNotations.
Local Open Scope R_scope.

(** [GaussianDistribution.sample] (G.py:44-45) at position [p] of the stream. *)
Definition norm_rvs (nrm : nat -> R) (mu sigma : R) (amount p : nat) : list R :=
  map (fun k => mu + sigma * nrm k) (seq p amount).

(** Returns the position in the stream as well.  A sample is kept if its log likelihood is above minus infinity (G.py:191-192). *)
Fixpoint rejection_sample (fuel : nat) (nrm : nat -> R) (v : nat) (i : sint) (mu sigma : R) (amount p : nat) : option (list R * nat) :=
  match fuel with
  | 0%nat => None
  | S f =>
      let samples := filter (fun x => gt_ninf (ll1 (DTGauss v i mu sigma) x)) (norm_rvs nrm mu sigma amount p) in
      let rejected_samples := (amount - length samples)%nat in
      if Nat.ltb 0 rejected_samples then
        match rejection_sample f nrm v i mu sigma rejected_samples (p + amount)%nat with
        | None => None
        | Some (rest, p') => Some (samples ++ rest, p')
        end
      else Some (samples, (p + amount)%nat)
  end.
